(** When two grammars, and two parse trees, count as equal. *)
From Verif Require Import Base Scanner Syntax.

(** Equality of terms, except that the rules of nested grammars may come in any order (a Go map
    has none). *)
Inductive same : term -> term -> Prop :=
| same_rule : forall r, same (TRule r) (TRule r)
| same_s : forall s, same (TS s) (TS s)
| same_re : forall s, same (TRE s) (TRE s)
| same_ref : forall i d, same (TREF i d) (TREF i d)
| same_ext : forall s, same (TExtRef s) (TExtRef s)
| same_seq : forall xs ys, Forall2 same xs ys -> same (TSeq xs) (TSeq ys)
| same_oneof : forall xs ys, Forall2 same xs ys -> same (TOneof xs) (TOneof ys)
| same_stack : forall xs ys, Forall2 same xs ys -> same (TStack xs) (TStack ys)
| same_delim : forall x y sx sy a cs ce, same x y -> same sx sy -> same (TDelim x sx a cs ce) (TDelim y sy a cs ce)
| same_look : forall x y, same x y -> same (TLookAhead x) (TLookAhead y)
| same_quant : forall x y mn mx, same x y -> same (TQuant x mn mx) (TQuant y mn mx)
| same_named : forall n x y, same x y -> same (TNamed n x) (TNamed n y)
| same_scoped : forall x y gx gy, same x y ->
    (forall k v, lookup k gx = Some v -> exists w, lookup k gy = Some w /\ same v w) ->
    (forall k, lookup k gx = None -> lookup k gy = None) ->
    same (TScoped x gx) (TScoped y gy)
| same_cut : forall x y, same x y -> same (TCut x) (TCut y).

Definition same_grammar (a b : grammar) : Prop :=
  (forall k v, lookup k a = Some v -> exists w, lookup k b = Some w /\ same v w) /\
  (forall k, lookup k a = None -> lookup k b = None).

(** No rule is listed twice in a nested grammar. *)
Fixpoint maps_ok (t : term) : Prop :=
  let all := fix all (ts : list term) : Prop :=
    match ts with [] => True | x :: ts' => maps_ok x /\ all ts' end in
  let all_g := fix all_g (g : list (string * term)) : Prop :=
    match g with [] => True | (_, x) :: g' => maps_ok x /\ all_g g' end in
  match t with
  | TSeq ts | TOneof ts | TStack ts => all ts
  | TDelim x s _ _ _ => maps_ok x /\ maps_ok s
  | TLookAhead x | TQuant x _ _ | TNamed _ x | TCut x => maps_ok x
  | TScoped x g => maps_ok x /\ NoDup (keys g) /\ all_g g
  | _ => True
  end.

(** Terms the comparison handles: no external references, and whether a back reference has a
    default depends on its name only. *)
Fixpoint diffable (D : string -> bool) (t : term) : Prop :=
  let all := fix all (ts : list term) : Prop :=
    match ts with [] => True | x :: ts' => diffable D x /\ all ts' end in
  let all_g := fix all_g (g : list (string * term)) : Prop :=
    match g with [] => True | (_, x) :: g' => diffable D x /\ all_g g' end in
  match t with
  | TExtRef _ => False
  | TREF i d => match d with Some _ => D i = true | None => D i = false end
  | TSeq ts | TOneof ts | TStack ts => all ts
  | TDelim x s _ _ _ => diffable D x /\ diffable D s
  | TLookAhead x | TQuant x _ _ | TNamed _ x | TCut x => diffable D x
  | TScoped x g => diffable D x /\ all_g g
  | _ => True
  end.

Definition diffable_grammar (D : string -> bool) (g : grammar) : Prop :=
  NoDup (keys g) /\ Forall (fun kv : string * term => maps_ok (snd kv) /\ diffable D (snd kv)) g.

(** The part of two trees the tree comparison looks at: the nodes of the first. *)
Inductive same_nodes : tree -> tree -> Prop :=
| sn_node : forall tag x cs ds, (forall b, x <> XBranch b) -> Forall2 same_nodes cs ds ->
    same_nodes (Node tag x cs) (Node tag x ds)
| sn_leaf : forall s b, same_nodes (Leaf s) b
| sn_empty : forall b, same_nodes Empty b.

(** Trees for which the comparison does not panic: no AST attached to any node of the first, and
    a node of the first never faces something else at the same place of the second. *)
Inductive facing : tree -> tree -> Prop :=
| fc_node : forall tag tag' x y cs ds, (forall b, x <> XBranch b) ->
    facing_all cs ds -> facing (Node tag x cs) (Node tag' y ds)
| fc_leaf : forall s b, facing (Leaf s) b
| fc_empty : forall b, facing Empty b
with facing_all : list tree -> list tree -> Prop :=
| fa_nil_l : forall ds, facing_all [] ds
| fa_nil_r : forall cs, facing_all cs []
| fa_cons : forall c d cs ds, facing c d -> facing_all cs ds -> facing_all (c :: cs) (d :: ds).
