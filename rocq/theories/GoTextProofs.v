(** A text holds one list of declarations only: more fuel reads the same. *)
From Verif Require Import Base Scanner Syntax Resolve Ast WbnfAst GoText.

Ltac onward E tac :=
  repeat (let M := match type of E with context [match ?x with _ => _ end] => x end in
          destruct M eqn:?; try discriminate E; try tac); try exact E.
Ltac use L := match goal with H : _ = Some _ |- _ => rewrite (L _ _ H); clear H end.

Lemma type_more : forall f ps r, read_type f ps = Some r -> read_type (S f) ps = Some r.
Proof.
  induction f as [|f IH]; intros ps r E; [discriminate|]. remember (S f) as g. rewrite Heqg in E at 1. cbn [read_type] in E |- *.
  onward E ltac:(idtac; use IH).
Qed.

Definition exprs_more (f : nat) : Prop :=
  (forall h ps r, read_either f h ps = Some r -> read_either (S f) h ps = Some r) /\
  (forall h ps r, read_both f h ps = Some r -> read_both (S f) h ps = Some r) /\
  (forall h ps r, read_compare f h ps = Some r -> read_compare (S f) h ps = Some r) /\
  (forall h ps r, read_unary f h ps = Some r -> read_unary (S f) h ps = Some r) /\
  (forall h e ps r, read_after f h e ps = Some r -> read_after (S f) h e ps = Some r) /\
  (forall ps r, read_args f ps = Some r -> read_args (S f) ps = Some r).
Lemma exprs_more_all : forall f, exprs_more f.
Proof.
  induction f as [|f (A & B & C & D & E & F)]; [repeat split; intros; discriminate|].
  pose proof (type_more f) as T.
  repeat split; intros; match goal with H : _ = Some _ |- _ => rename H into G end;
    remember (S f) as g eqn:Eg; rewrite Eg in G at 1.
  - cbn [read_either] in G |- *. onward G ltac:(idtac; first [use (B h)|use (A h)]).
  - cbn [read_both] in G |- *. onward G ltac:(idtac; first [use (C h)|use (B h)]).
  - cbn [read_compare] in G |- *. onward G ltac:(idtac; use (D h)).
  - cbn [read_unary] in G |- *. onward G ltac:(idtac; first [use (A false)|use (D h)|use (D true)|use (D false)]); auto.
  - cbn [read_after] in G |- *. onward G ltac:(idtac; first [use T|use F]); auto.
  - cbn [read_args] in G |- *. onward G ltac:(idtac; first [use (A false)|use F]).
Qed.
Definition stmts_more (f : nat) : Prop :=
  (forall ps r, read_stmts f ps = Some r -> read_stmts (S f) ps = Some r) /\ (forall ps r, read_stmt f ps = Some r -> read_stmt (S f) ps = Some r).
Lemma stmts_more_all : forall f, stmts_more f.
Proof.
  induction f as [|f (A & B)]; [split; intros; discriminate|].
  pose proof (type_more f) as T. destruct (exprs_more_all f) as (E & _).
  split; intros ps r G; remember (S f) as g eqn:Eg; rewrite Eg in G at 1.
  - cbn [read_stmts] in G |- *. onward G ltac:(idtac; first [use A|use B]); auto.
  - cbn [read_stmt] in G |- *. onward G ltac:(idtac; first [use T|use (E true)|use (E false)|use A]); auto.
Qed.
Lemma decl_more : forall f ps r, read_decl f ps = Some r -> read_decl (S f) ps = Some r.
Proof.
  intros f ps r G. pose proof (type_more f) as T. destruct (stmts_more_all f) as [A _]. remember (S f) as g eqn:Eg. 
  unfold read_decl in G |- *. onward G ltac:(idtac; first [use T|use A]); auto.
Qed.
Lemma decls_more : forall f ps r, read_decls f ps = Some r -> read_decls (S f) ps = Some r.
Proof.
  induction f as [|f IH]; intros ps r E; [discriminate|]. pose proof (decl_more f) as D. remember (S f) as g. rewrite Heqg in E at 1. cbn [read_decls] in E |- *.
  onward E ltac:(idtac; first [use D|use IH]).
Qed.
Lemma decls_enough : forall f f' ps r, f <= f' -> read_decls f ps = Some r -> read_decls f' ps = Some r.
Proof. intros f f' ps r L E. induction L as [|f' L IH]; [exact E|]. now apply decls_more. Qed.
Lemma go_source_once : forall b ds ds', go_source b ds -> go_source b ds' -> ds = ds'.
Proof.
  intros b ds ds' (ps & f & L & R) (ps' & f' & L' & R'). rewrite L in L'. inversion L'; subst ps'.
  assert (A : read_decls (Nat.max f f') ps = Some ds) by (apply (decls_enough f); [lia|exact R]).
  assert (B : read_decls (Nat.max f f') ps = Some ds') by (apply (decls_enough f'); [lia|exact R']). congruence.
Qed.
