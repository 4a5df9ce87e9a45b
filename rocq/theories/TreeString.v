(** Model of [Node.Format], [Node.String] and [Node.Normalize] (parser/parsernodes.go) and [Scanner.Format] (parser/scanner.go).
    They run inside package fmt, which writes a text of its own where one of them panics; [None] stands for that. *)
From Verif Require Import Base Scanner Syntax Resolve Codegen Treeview NodeString TermString.
Local Open Scope list_scope.

(** The verbs "%v", "%s" and "%q".  Others are not modelled. *)
Inductive verb := ByV | ByS | ByQ.

Section Format.
  (** What fmt makes of a string and of an integer for "%q". *)
  Variable quote : bytes -> bytes.
  Variable quote_rune : nat -> bytes.

  (** What fmt makes of a value with a [String] method. *)
  Definition stringer (v : verb) (x : bytes) : bytes := match v with ByQ => quote x | ByV | ByS => x end.

  (** scanner.go:63-69 [Scanner.Format]. *)
  Definition scanner_format (v : verb) (s : scanner) : option bytes :=
    match sslice s with None => None | Some x => Some (stringer v x) end.

  (** What fmt makes of the extra of a node.  terms.go:87 [Choice] is an int without methods, for which fmt has no "%s";
      [Associativity] and [Branch] have a [String] method. *)
  Definition extra_format (v : verb) (x : extra) : option bytes :=
    match x with
    | XNone => Some []
    | XChoice c =>
        Some (match v with
              | ByV => bs (dec c)
              | ByS => bs "%!s(parser.Choice=" ++ bs (dec c) ++ bs ")"
              | ByQ => quote_rune c
              end)
    | XAssoc a => Some (stringer v (assoc_string a))
    | XBranch b => match node_string quote (ABranch b) with None => None | Some y => Some (stringer v y) end
    end.

  (** parsernodes.go:78-83, the loop over the children, given what they give. *)
  Fixpoint children_format (first : bool) (cs : list (option bytes)) : option bytes :=
    match cs with
    | [] => Some []
    | None :: _ => None
    | Some c :: cs' =>
        match children_format false cs' with
        | None => None
        | Some rest => Some ((if first then [] else bs ", ") ++ c ++ rest)
        end
    end.

  (** parsernodes.go:71-85 [Node.Format]; for a scanner [Scanner.Format]; fmt writes "{}" for the empty struct [Empty] (parser.go:387). *)
  Fixpoint tree_format (v : verb) (t : tree) : option bytes :=
    match t with
    | Node tag x cs =>
        match extra_format v x, children_format true (map (tree_format v) cs) with
        | Some e, Some body =>
            Some (bs tag ++ match x with XNone => [] | _ => bs "║" ++ e end ++ bs "[" ++ body ++ bs "]")
        | _, _ => None
        end
    | Leaf s => scanner_format v s
    | Empty => Some (bs "{}")
    end.

  (** parsernodes.go:67-69 [Node.String]. *)
  Definition tree_string (t : tree) : option bytes := tree_format ByS t.
End Format.

(** parsernodes.go:32-45 [Node.Normalize]; the loop makes a new slice of the children.  For other tree elements the caller's type
    test (line 35) leaves them as they are. *)
Fixpoint tree_normalize (t : tree) : tree :=
  match t with
  | Node tag x cs => Node tag x (fold_left (fun children v => children ++ [tree_normalize v]) cs [])
  | _ => t
  end.
