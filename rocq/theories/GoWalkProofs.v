(** A text holds one list of walk functions only: more fuel reads the same. *)
From Verif Require Import Base Scanner Syntax Resolve Ast WbnfAst Walker GoText GoTextProofs GoWalk.

Definition ws_more (f : nat) : Prop :=
  (forall ps r, read_ws f ps = Some r -> read_ws (S f) ps = Some r) /\ (forall ps r, read_w f ps = Some r -> read_w (S f) ps = Some r) /\
  (forall ps r, read_if f ps = Some r -> read_if (S f) ps = Some r).
Lemma ws_more_all : forall f, ws_more f.
Proof.
  induction f as [|f (A & B & C)]; [repeat split; intros; discriminate|].
  destruct (exprs_more_all f) as (E & _).
  repeat split; intros ps r G; remember (S f) as g eqn:Eg; rewrite Eg in G at 1.
  - cbn [read_ws] in G |- *. onward G ltac:(idtac; first [use A|use B]); auto.
  - cbn [read_w] in G |- *. onward G ltac:(idtac; first [use (E true)|use (E false)|use A]); auto.
  - cbn [read_if] in G |- *. onward G ltac:(idtac; first [use (E true)|use A|use C]); auto.
Qed.
Lemma func_more : forall f ps r, read_func f ps = Some r -> read_func (S f) ps = Some r.
Proof.
  intros f ps r G. destruct (ws_more_all f) as [A _]. remember (S f) as g eqn:Eg. unfold read_func in G |- *. onward G ltac:(idtac; use A); auto.
Qed.
Lemma funcs_more : forall f ps r, read_funcs f ps = Some r -> read_funcs (S f) ps = Some r.
Proof.
  induction f as [|f IH]; intros ps r E; [discriminate|]. pose proof (func_more f) as D. remember (S f) as g. rewrite Heqg in E at 1. cbn [read_funcs] in E |- *.
  onward E ltac:(idtac; first [use D|use IH]).
Qed.
Lemma funcs_enough : forall f f' ps r, f <= f' -> read_funcs f ps = Some r -> read_funcs f' ps = Some r.
Proof. intros f f' ps r L E. induction L as [|f' L IH]; [exact E|]. now apply funcs_more. Qed.
Lemma go_funcs_once : forall b ds ds', go_funcs b ds -> go_funcs b ds' -> ds = ds'.
Proof.
  intros b ds ds' (ps & f & L & R) (ps' & f' & L' & R'). rewrite L in L'. inversion L'; subst ps'.
  assert (A : read_funcs (Nat.max f f') ps = Some ds) by (apply (funcs_enough f); [lia|exact R]).
  assert (B : read_funcs (Nat.max f f') ps = Some ds') by (apply (funcs_enough f'); [lia|exact R']). congruence.
Qed.
Lemma cases_more : forall f ps r, read_cases f ps = Some r -> read_cases (S f) ps = Some r.
Proof.
  induction f as [|f IH]; intros ps r E; [discriminate|]. destruct (ws_more_all f) as (_ & B & _). remember (S f) as g. rewrite Heqg in E at 1. cbn [read_cases] in E |- *.
  onward E ltac:(idtac; first [use B|use IH]).
Qed.
Lemma switch_more : forall f ps r, read_switch f ps = Some r -> read_switch (S f) ps = Some r.
Proof.
  intros f ps r G. destruct (ws_more_all f) as [A _]. pose proof (cases_more f) as C. remember (S f) as g eqn:Eg. unfold read_switch in G |- *.
  onward G ltac:(idtac; first [use C|use A]); auto.
Qed.
Lemma walker_more : forall f ps r, read_walker f ps = Some r -> read_walker (S f) ps = Some r.
Proof.
  intros f ps r G. pose proof (switch_more f) as C. pose proof (funcs_more f) as D. remember (S f) as g eqn:Eg. unfold read_walker in G |- *.
  onward G ltac:(idtac; first [use C|use D]); auto.
Qed.
Lemma walker_enough : forall f f' ps r, f <= f' -> read_walker f ps = Some r -> read_walker f' ps = Some r.
Proof. intros f f' ps r L E. induction L as [|f' L IH]; [exact E|]. now apply walker_more. Qed.
Lemma go_walker_once : forall b w w', go_walker b w -> go_walker b w' -> w = w'.
Proof.
  intros b ds ds' (ps & f & L & R) (ps' & f' & L' & R'). rewrite L in L'. inversion L'; subst ps'.
  assert (A : read_walker (Nat.max f f') ps = Some ds) by (apply (walker_enough f); [lia|exact R]).
  assert (B : read_walker (Nat.max f f') ps = Some ds') by (apply (walker_enough f'); [lia|exact R']). congruence.
Qed.
