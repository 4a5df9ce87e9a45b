(** Model of the [String] methods of ast/node_string.go and of [narrow] in ast/node.go.
    [fmt]'s %q is an oracle; [None] is a panic. *)
From Verif Require Import Base Scanner Syntax Resolve Codegen Treeview.
Local Open Scope list_scope.

(** node_string.go:104-106 [Extra.String]: %v of the data. *)
Definition data_string (d : adata) : bytes :=
  match d with
  | DRule r => bs r
  | DChoice c => bs (dec c)
  | DString s => bs s
  | DInt z => decz z
  end.

(** [strings.ReplaceAll(s, "\n", "\n"+pre)]. *)
Fixpoint indent (pre s : bytes) : bytes :=
  match s with
  | [] => []
  | c :: s' => if Ascii.eqb c nl then nl :: pre ++ indent pre s' else c :: indent pre s'
  end.

(** node.go:153-179 [narrow]. *)
Fixpoint node_narrow (n : anode) : bool :=
  match n with
  | ALeaf _ | AExtra _ => true
  | ABranch [] => true
  | ABranch [(_, One m)] => node_narrow m
  | ABranch [(_, Many [])] => true
  | ABranch [(_, Many [m])] => node_narrow m
  | ABranch _ => false
  end.

(** node_string.go:40-51: the children from the one with index [i] on; [complex] as in lines 24-35. *)
Fixpoint many_loop (complex first : bool) (cs : list (option bytes)) : option bytes :=
  match cs with
  | [] => Some []
  | None :: _ => None
  | Some c :: cs' =>
      match many_loop complex false cs' with
      | None => None
      | Some rest =>
          Some ((if first then [] else if complex then bs "," ++ [nl] ++ bs "  " else bs ", ") ++
                indent (if complex then bs "  " else []) c ++ rest)
      end
  end.
(** node_string.go:20-56 [Many.String], given what the children are and give. *)
Definition many_string (narrow : list bool) (cs : list (option bytes)) : option bytes :=
  let complex := Nat.ltb 1 (length cs) && negb (forallb (fun b => b) narrow) in
  match many_loop complex true cs with
  | None => None
  | Some body =>
      Some (bs "[" ++ (if complex then [nl] ++ bs "  " else []) ++ body ++ (if complex then bs "," ++ [nl] else []) ++ bs "]")
  end.

(** node_string.go:89-100: the loop over the sorted names. *)
Fixpoint branch_loop (pre : bytes) (first : bool) (names : list string) (strs : list (string * option bytes)) : option bytes :=
  match names with
  | [] => Some []
  | name :: names' =>
      match lookup name strs, branch_loop pre false names' strs with
      | Some (Some group), Some rest =>
          Some ((if first then [] else bs "," ++ [nl] ++ bs "  ") ++
                (if String.eqb name "" then bs "''" else bs name) ++ bs ": " ++ indent pre group ++ rest)
      | _, _ => None
      end
  end.
(** node_string.go:76-102 [Branch.String], given what the children give. *)
Definition branch_string (strs : list (string * option bytes)) : option bytes :=
  let many := Nat.ltb 1 (length strs) in
  match branch_loop (if many then bs "  " else []) true (sort_strings (keys strs)) strs with
  | None => None
  | Some body => Some (bs "(" ++ (if many then [nl] ++ bs "  " else []) ++ body ++ (if many then bs "," ++ [nl] else []) ++ bs ")")
  end.

(** node_string.go:13-18 [One.String], and the [String] methods of nodes. *)
Fixpoint node_string (quote : bytes -> bytes) (n : anode) : option bytes :=
  match n with
  | ALeaf s => leaf_string quote s
  | AExtra d => Some (data_string d)
  | ABranch b =>
      branch_string (map (fun kc : string * children anode =>
        let (k, c) := kc in
        (k, match c with
            | One m => node_string quote m
            | Many ns => many_string (map node_narrow ns) (map (node_string quote) ns)
            end)) b)
  end.
