(** Repetitions that go round for ever. *)
From Verif Require Import Base Scanner Syntax Engine Parse PegSpec.

(** Repeating [t] from [s] comes to a position where [t] matches without consuming. *)
Inductive goes_round (E : engine) (g : grammar) (t : term) : scanner -> Prop :=
| gr_here : forall s v, peg E [g] [] "" t s (Succ v s) -> goes_round E g t s
| gr_next : forall s v s1, peg E [g] [] "" t s (Succ v s1) -> goes_round E g t s1 -> goes_round E g t s.

(** The rule is, after following aliases, an unbounded repetition of [t]. *)
Definition repeats (g : grammar) (r : string) (t : term) : Prop :=
  exists u mn, lookup r g = Some u /\ alias_body g u (TQuant t mn 0).
