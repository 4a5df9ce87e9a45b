(** What a cycle of rules is, independently of the search. *)
From Verif Require Import Base.

Section Graph.
  (** [dangers x] are the rules that [x] may start with. *)
  Variable dangers : list (string * list string).
  Definition edge (x y : string) : Prop := exists l, lookup x dangers = Some l /\ In y l.
  (** A way from [x] to [y] through the rules listed. *)
  Inductive chain : string -> list string -> string -> Prop :=
  | chain_one x y : edge x y -> chain x [x] y
  | chain_more x y p z : edge x y -> chain y p z -> chain x (x :: p) z.
  (** A cycle, as the list of its rules, each once. *)
  Definition cycle (p : list string) : Prop := NoDup p /\ exists x, chain x p x.
End Graph.

(** The lengths at which an appended slice is full. *)
Inductive full (grow : nat -> nat) : nat -> Prop :=
| full_0 : full grow 0
| full_grow n : full grow n -> full grow (grow n).
