(** What the printed form of an AST tells about it. *)
From Verif Require Import Base Scanner Syntax Resolve.

(** The text of data in decimal or as it is. *)
Inductive data_text : adata -> bytes -> Prop :=
| dt_rule : forall r, data_text (DRule r) (bs r)
| dt_choice : forall c, data_text (DChoice c) (bs (dec c))
| dt_string : forall s, data_text (DString s) (bs s)
| dt_int : forall n, data_text (DInt (Z.of_nat n)) (bs (dec n))
| dt_negative : forall n, data_text (DInt (- Z.of_nat (S n))) ("-"%char :: bs (dec (S n))).

(** The same tree: the children in any order of names, leaves with the same text at the same offset,
    data with the same text. *)
Inductive alike : anode -> anode -> Prop :=
| al_leaf : forall s s', offset s = offset s' -> sstring s = sstring s' -> alike (ALeaf s) (ALeaf s')
| al_extra : forall d d' x, data_text d x -> data_text d' x -> alike (AExtra d) (AExtra d')
| al_branch : forall b b1 b', Forall2 alike_entry b b1 -> Permutation b1 b' -> alike (ABranch b) (ABranch b')
with alike_entry : string * children anode -> string * children anode -> Prop :=
| al_one : forall k n n', alike n n' -> alike_entry (k, One n) (k, One n')
| al_many : forall k ns ns', Forall2 alike ns ns' -> alike_entry (k, Many ns) (k, Many ns').

(** Names and data that cannot be mistaken for something else. *)
Definition clear_name (k : string) : Prop := forall c, In c (bs k) -> ~ In c (nl :: bs ": )'").
Definition clear_data (d : adata) : Prop := forall x, data_text d x -> x <> [] /\ forall c, In c x -> ~ In c (nl :: "226"%char :: bs " ,()[]").
Inductive clear : anode -> Prop :=
| cl_leaf : forall s, clear (ALeaf s)
| cl_extra : forall d, clear_data d -> clear (AExtra d)
| cl_branch : forall b, NoDup (keys b) -> (forall k c, In (k, c) b -> clear_name k /\ clear_kids c) -> clear (ABranch b)
with clear_kids : children anode -> Prop :=
| ck_one : forall n, clear n -> clear_kids (One n)
| ck_many : forall ns, (forall n, In n ns -> clear n) -> clear_kids (Many ns).

(** What %q does: a text in double quotes, on one line, whose end can be seen and which tells the original. *)
Definition quotes (quote : bytes -> bytes) : Prop :=
  (forall x, exists r, quote x = """"%char :: r) /\ (forall x, ~ In nl (quote x)) /\
  (forall x y r r', quote x ++ r = quote y ++ r' -> x = y /\ r = r').

(** Names occur once in a branch, as in a map. *)
Inductive keyed : anode -> Prop :=
| ky_leaf : forall s, keyed (ALeaf s)
| ky_extra : forall d, keyed (AExtra d)
| ky_branch : forall b, NoDup (keys b) -> (forall k c, In (k, c) b -> keyed_kids c) -> keyed (ABranch b)
with keyed_kids : children anode -> Prop :=
| kk_one : forall n, keyed n -> keyed_kids (One n)
| kk_many : forall ns, (forall n, In n ns -> keyed n) -> keyed_kids (Many ns).
