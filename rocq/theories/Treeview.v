(** Model of ast/treeview.go and of [Leaf.String] in ast/node_string.go.

    [fmt]'s %q and the %v of an [Extra] are oracles.  The order in which Go iterates over the map
    of a branch and what the unstable [sort.Slice] does with equal ranks are parameters, and may
    differ from branch to branch: they are given the path of the branch.  [None] is a panic. *)
From Verif Require Import Base Scanner Syntax Resolve Ast Gotree.

(** node_string.go:58 [specialCharRE]. *)
Definition special_char (c : ascii) : bool :=
  let n := nat_of_ascii c in
  Nat.ltb n 32 || Nat.eqb n 127 || existsb (Ascii.eqb c) (bs ":,'`(){}[]").
(** %d of an int. *)
Definition decz (z : Z) : bytes :=
  if (z <? 0)%Z then bs "-" ++ bs (dec (Z.to_nat (- z))) else bs (dec (Z.to_nat z)).
(** node_string.go:60-74 [Leaf.String]; in the second case there is no back quote in the text. *)
Definition leaf_string (quote : bytes -> bytes) (l : scanner) : option bytes :=
  match sstring l with
  | None => None
  | Some s =>
      Some (decz (offset l) ++ bs "‣" ++
            (if existsb special_char s then quote s
             else if existsb (Ascii.eqb """") s then bs "`" ++ s ++ bs "`"
             else s))
  end.

(** treeview.go:13 [collapsedNodeSep]. *)
Definition collapsedNodeSep : bytes := bs " ‣ ".
(** [strings.Split] and [strings.Join] with a separator that is not empty; [skip] bytes of a
    separator have still to be passed. *)
Fixpoint split_sep (sep : bytes) (skip : nat) (b : bytes) : list bytes :=
  match b with
  | [] => [[]]
  | c :: b' =>
      match skip with
      | S skip => split_sep sep skip b'
      | O => if beqb (firstn (length sep) b) sep then [] :: split_sep sep (length sep - 1) b'
             else match split_sep sep 0 b' with l :: ls => (c :: l) :: ls | [] => [[c]] end
      end
  end.
Fixpoint join_sep (sep : bytes) (ls : list bytes) : bytes :=
  match ls with
  | [] => []
  | [l] => l
  | l :: ls' => l ++ sep ++ join_sep sep ls'
  end.
(** treeview.go:18-27: the loop over the parts from the one with index [i] on. *)
Fixpoint collapse_loop (prefix : bytes) (i : nat) (parts : list bytes) : list bytes :=
  match parts with
  | [] => [prefix]
  | s :: parts' =>
      if beqb s (bs "...") || beqb s prefix then collapse_loop prefix (S i) parts'
      else [prefix] ++ (if Nat.ltb 0 i then [bs "..."] else []) ++ parts
  end.
(** treeview.go:15-29 [collapseNodeText]. *)
Definition collapse_text (prefix text : bytes) : bytes :=
  join_sep collapsedNodeSep (collapse_loop prefix 0 (split_sep collapsedNodeSep 0 text)).

Section View.
  Variables (quote : bytes -> bytes) (extra : adata -> bytes) (skip : bool).
  Variables (ord : list nat -> list (list gtree) -> list (list gtree))
            (sorter : list nat -> list (Z * gtree) -> list (Z * gtree)).

  (** treeview.go:49-54, 62-63: what becomes of a branch with its items. *)
  Definition finish (path : list nat) (t : gtree) : option gtree :=
    match t with
    | GTree name [GTree x [u]] => Some (GTree (collapse_text name x) [u])
    | _ => sort_items (sorter path) t
    end.

  (** treeview.go:31-64 [fromAst]: the trees of the children of each name, in the order of the
      map, are the items. *)
  Fixpoint from_ast (path : list nat) (name : string) (node : anode) {struct node} : option gtree :=
    match node with
    | ALeaf s => match leaf_string quote s with Some x => Some (gnew x) | None => None end
    | AExtra d => Some (add_text (gnew (bs name)) (extra d))
    | ABranch b =>
        match
          (fix groups (i : nat) (b : list (string * children anode)) : option (list (list gtree)) :=
             match b with
             | [] => Some []
             | (k, c) :: b' =>
                 if skip && String.prefix "@" k then groups (S i) b'
                 else
                   match
                     match c with
                     | One n => match from_ast (path ++ [i; 0]) k n with Some t => Some [t] | None => None end
                     | Many ns =>
                         (fix many (j : nat) (ns : list anode) : option (list gtree) :=
                            match ns with
                            | [] => Some []
                            | n :: ns' =>
                                match from_ast (path ++ [i; j]) k n, many (S j) ns' with
                                | Some t, Some ts => Some (t :: ts)
                                | _, _ => None
                                end
                            end) 0 ns
                     end, groups (S i) b'
                   with
                   | Some ts, Some gs => Some (ts :: gs)
                   | _, _ => None
                   end
             end) 0 b
        with
        | Some gs => finish path (GTree (bs name) (concat (ord path gs)))
        | None => None
        end
    end.

  (** treeview.go:9-11 [BuildTreeView]. *)
  Definition tree_view (grow : nat -> nat) (rootname : string) (root : anode) : option bytes :=
    match from_ast [] rootname root with Some t => Some (print grow t) | None => None end.
End View.
