(** The model's numbers and directions are those of [NumSpec]. *)
From Verif Require Import Base Scanner Syntax Resolve Ast WbnfAst StrLit Build NumSpec TextSpec.

Lemma digits_app : forall ds c acc, digits_value (ds ++ [c]) acc = (digits_value ds acc * 10 + (Z.of_nat (nat_of_ascii c) - 48))%Z.
Proof. induction ds as [|d ds IH]; intros c acc; simpl; auto. Qed.
Lemma is_digit_value : forall c, is_digit c = true <-> exists v, digit_value c v.
Proof.
  intros c. unfold is_digit. rewrite Bool.andb_true_iff, !Nat.leb_le. split.
  - intros [A B]. exists (nat_of_ascii c - 48). constructor; lia.
  - intros [v H]. inversion H; subst. lia.
Qed.
Lemma numeral_digits : forall ds k, numeral ds k -> nonempty ds = true /\ forallb is_digit ds = true /\ digits_value ds 0 = Z.of_nat k.
Proof.
  intros ds k H. induction H as [c v D|ds k c v N (A & B & C) D].
  - split; auto. split; [simpl; rewrite (proj2 (is_digit_value c)); eauto|]. inversion D; subst. simpl. lia.
  - split; [destruct ds; auto|]. split; [rewrite forallb_app, B; simpl; rewrite (proj2 (is_digit_value c)); eauto|].
    rewrite digits_app, C. inversion D; subst. lia.
Qed.
Lemma digits_numeral : forall ds, nonempty ds = true -> forallb is_digit ds = true -> exists k, numeral ds k.
Proof.
  intros ds. induction ds as [|c ds IH] using rev_ind; [discriminate|]. intros _ D. rewrite forallb_app in D. apply Bool.andb_true_iff in D as [D1 D2].
  simpl in D2. rewrite Bool.andb_true_r in D2. apply is_digit_value in D2 as [v V]. destruct ds as [|d ds].
  - exists v. now constructor.
  - destruct IH as [k K]; auto. exists (10 * k + v). now apply numeral_more.
Qed.
Lemma atoi_numeral : forall x k, atoi_text x = Some k <-> numeral (bs x) k /\ is_int k.
Proof.
  intros x k. unfold atoi_text, is_int, atoi. change (2 ^ 63)%Z with 9223372036854775808%Z. split.
  - destruct (nonempty (bs x) && forallb is_digit (bs x))%bool eqn:D; [|discriminate]. apply Bool.andb_true_iff in D as [D1 D2].
    destruct (digits_numeral _ D1 D2) as [j J]. destruct (numeral_digits _ _ J) as (_ & _ & V). rewrite V.
    destruct (Z.leb_spec (Z.of_nat j) 9223372036854775807); [|discriminate]. intros H'. inversion H'; subst. rewrite Nat2Z.id. split; auto. lia.
  - intros [N L]. destruct (numeral_digits _ _ N) as (A & B & V). rewrite A, B, V. cbn [andb].
    destruct (Z.leb_spec (Z.of_nat k) 9223372036854775807); [|lia]. now rewrite Nat2Z.id.
Qed.
Lemma direction_assoc : forall op a, new_assoc op = COk a <-> direction op a.
Proof.
  intros op a. unfold new_assoc. split.
  - destruct (String.eqb_spec op ":") as [->|_]; [intros H; inversion H; constructor|].
    destruct (String.eqb_spec op ":>") as [->|_]; [intros H; inversion H; constructor|].
    destruct (String.eqb_spec op "<:") as [->|_]; [intros H; inversion H; constructor|discriminate].
  - intros H. destruct H; reflexivity.
Qed.
Lemma bound_of_ok : forall n k, bound_of n k <-> bound n = COk k.
Proof.
  intros n k. unfold bound_of, bound. split.
  - intros (x & -> & [[-> ->]|A]); [reflexivity|]. cbn [cbind].
    destruct (String.eqb x "") eqn:E; [apply String.eqb_eq in E; subst x; destruct A as [A _]; apply numeral_digits in A as [A _]; discriminate|].
    apply atoi_numeral in A. rewrite A. reflexivity.
  - intros H. destruct (string_of n) as [x| |]; try discriminate. cbn [cbind] in H. exists x. split; auto.
    destruct (String.eqb x "") eqn:E; [apply String.eqb_eq in E; inversion H; auto|]. right. apply atoi_numeral. destruct (atoi_text x); inversion H; auto.
Qed.
