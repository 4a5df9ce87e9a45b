(** Proofs about DropCaps and GoName. *)
From Verif Require Import Base Scanner Syntax Resolve Compile Codegen Types NameSpec.

Lemma all_chars : forall P : ascii -> bool, forallb P (map ascii_of_nat (seq 0 256)) = true -> forall c, P c = true.
Proof.
  intros P F c. rewrite forallb_forall in F. apply F. rewrite <- (ascii_nat_embedding c). apply in_map. apply in_seq. pose proof (nat_ascii_bounded c). lia.
Qed.
Lemma is_cap_capital : forall c, is_cap c = true <-> capital c.
Proof.
  assert (B : forall c, is_cap c = existsb (Ascii.eqb c) capitals).
  { intros c. apply Bool.eqb_prop. apply (all_chars (fun c => Bool.eqb (is_cap c) (existsb (Ascii.eqb c) capitals))). vm_compute. reflexivity. }
  intros c. rewrite B, existsb_exists. unfold capital. split.
  - intros (x & I & E). apply Ascii.eqb_eq in E. now subst.
  - intros I. exists c. split; auto. apply Ascii.eqb_refl.
Qed.
Lemma cap_small : forall c, is_cap c = true -> small c (lower c).
Proof.
  intros c H. pose proof H as H'. apply is_cap_capital in H'. apply In_nth_error in H' as [i E]. exists i. split; auto.
  assert (Q : forall i c, nth_error capitals i = Some c -> nth_error small_letters i = Some (lower c)).
  { intros j x F. do 26 (destruct j as [|j]; [injection F as <-; vm_compute; reflexivity|cbn in F]). destruct j; discriminate. }
  auto.
Qed.
Lemma lower_not_cap : forall c, is_cap c = true -> is_cap (lower c) = false.
Proof.
  intros c H. assert (E : (negb (is_cap c) || negb (is_cap (lower c)))%bool = true) by (apply (all_chars (fun c => (negb (is_cap c) || negb (is_cap (lower c)))%bool)); vm_compute; reflexivity).
  rewrite H in E. cbn [negb orb] in E. now apply negb_true_iff in E.
Qed.
Lemma rune_ascii : forall c, nat_of_ascii c < 128 -> rune_of c = [c].
Proof. intros c H. unfold rune_of. apply Nat.ltb_lt in H. now rewrite H. Qed.
Lemma rune_no_cap : forall c, is_cap c = false -> Forall (fun d => is_cap d = false) (rune_of c).
Proof.
  intros c H. assert (E : (is_cap c || forallb (fun d => negb (is_cap d)) (rune_of c))%bool = true)
    by (apply (all_chars (fun c => (is_cap c || forallb (fun d => negb (is_cap d)) (rune_of c))%bool)); vm_compute; reflexivity).
  rewrite H in E. cbn [orb] in E. rewrite forallb_forall in E. apply Forall_forall. intros d I. apply negb_true_iff. exact (E d I).
Qed.
Lemma rune_cap : forall c, is_cap c = true -> rune_of c = [c].
Proof.
  intros c H. assert (E : (negb (is_cap c) || beqb (rune_of c) [c])%bool = true) by (apply (all_chars (fun c => (negb (is_cap c) || beqb (rune_of c) [c])%bool)); vm_compute; reflexivity).
  rewrite H in E. cbn [negb orb] in E. now apply beqb_eq.
Qed.

Definition after (b : bool) (s : bytes) (i : nat) : bool :=
  match i with O => b | S j => match nth_error s j with Some a => is_cap a | None => false end end.
Lemma drop_nth : forall s b i, ascii_only s ->
  nth_error (drop_caps_from b s) i = match nth_error s i with Some c => Some (if (after b s i && is_cap c)%bool then lower c else c) | None => None end.
Proof.
  induction s as [|c s IH]; intros b i A; [now destruct i|]. inversion A as [|? ? L A']; subst. cbn [drop_caps_from]. rewrite (rune_ascii _ L).
  replace ((if (b && is_cap c)%bool then [lower c] else [c]) ++ drop_caps_from (is_cap c) s) with ((if (b && is_cap c)%bool then lower c else c) :: drop_caps_from (is_cap c) s)
    by now destruct (b && is_cap c)%bool.
  destruct i as [|i]; [reflexivity|]. cbn [nth_error]. rewrite IH by auto. now destruct i.
Qed.
Lemma drop_length : forall s b, ascii_only s -> length (drop_caps_from b s) = length s.
Proof.
  induction s as [|c s IH]; intros b A; auto. inversion A as [|? ? L A']; subst. cbn [drop_caps_from]. rewrite app_length, IH, (rune_ascii _ L) by auto.
  now destruct (b && is_cap c)%bool.
Qed.
Lemma crowded_after : forall s i c, nth_error s i = Some c -> (crowded s i <-> (after false s i && is_cap c)%bool = true).
Proof.
  intros s i c E. rewrite andb_true_iff. split.
  - intros (j & a & b & -> & EA & CA & EB & CB). cbn [after]. rewrite EA. assert (b = c) by congruence. subst. split; now apply is_cap_capital.
  - intros [A C]. destruct i as [|j]; [discriminate|]. cbn [after] in A. destruct (nth_error s j) as [a|] eqn:EA; [|discriminate].
    exists j, a, c. repeat split; auto; now apply is_cap_capital.
Qed.
Lemma drop_eases : forall s, ascii_only (bs s) -> eased (bs s) (bs (drop_caps s)).
Proof.
  intros s A. unfold drop_caps. rewrite bs_sb. split; [now apply drop_length|]. intros i c d E F. rewrite drop_nth, E in F by auto.
  rewrite (crowded_after _ _ _ E). destruct (after false (bs s) i && is_cap c)%bool eqn:K; injection F as <-.
  - apply andb_prop in K as [_ K]. split; [intros _; now apply cap_small|congruence].
  - split; [discriminate|auto].
Qed.

(** No two capitals stand together in the result. *)
Fixpoint apart (b : bool) (s : bytes) : Prop := match s with [] => True | c :: s' => (b && is_cap c)%bool = false /\ apart (is_cap c) s' end.
Lemma apart_app : forall t s b, Forall (fun d => is_cap d = false) t -> t <> [] -> apart false s -> apart b (t ++ s).
Proof.
  induction t as [|c t IH]; intros s b F N A; [congruence|]. inversion F as [|? ? E F']; subst. cbn [app apart]. rewrite E, andb_false_r. split; auto.
  destruct t as [|d t]; auto. apply IH; auto. discriminate.
Qed.
Lemma rune_nonempty : forall c, rune_of c <> [].
Proof. intros c. unfold rune_of. destruct (Nat.ltb (nat_of_ascii c) 128); discriminate. Qed.
Lemma apart_weak : forall s b, apart true s -> apart b s.
Proof. intros [|c s] b A; auto. destruct A as [A B]. cbn [apart]. split; auto. cbn in A. rewrite A. apply andb_false_r. Qed.
Lemma drop_apart : forall s b, apart b (drop_caps_from b s).
Proof.
  induction s as [|c s IH]; intros b; cbn [drop_caps_from]; [exact Logic.I|]. destruct (b && is_cap c)%bool eqn:K.
  - apply andb_prop in K as [-> K]. cbn [app apart]. rewrite (lower_not_cap _ K). split; auto. rewrite K. apply apart_weak, (IH true).
  - destruct (is_cap c) eqn:C.
    + rewrite rune_cap by auto. cbn [app apart]. rewrite C. split; auto.
    + apply apart_app; auto using rune_no_cap, rune_nonempty.
Qed.
Lemma apart_crowded : forall s b i, apart b s -> crowded s i -> False.
Proof.
  induction s as [|c s IH]; intros b i A (j & x & y & -> & EA & CA & EB & CB); [destruct j; discriminate|]. destruct A as [_ A]. destruct j as [|j].
  - injection EA as ->. destruct s as [|d s]; [discriminate|]. injection EB as ->. destruct A as [A _]. apply is_cap_capital in CA, CB. rewrite CA, CB in A. discriminate.
  - apply (IH _ (S j) A). exists j, x, y. auto.
Qed.
Lemma drop_uncrowded : forall s i, ~ crowded (bs (drop_caps s)) i.
Proof. intros s i C. unfold drop_caps in C. rewrite bs_sb in C. eapply apart_crowded; [apply drop_apart|exact C]. Qed.
Lemma eased_same : forall s t, (forall i, ~ crowded s i) -> eased s t -> t = s.
Proof.
  intros s t N [L E]. assert (Q : forall i, nth_error t i = nth_error s i).
  { intros i. destruct (nth_error s i) as [c|] eqn:S.
    - assert (J : i < length s) by (apply nth_error_Some; congruence). rewrite <- L in J. apply nth_error_Some in J. destruct (nth_error t i) as [d|] eqn:T; [|congruence].
      f_equal. now apply (E i c d S T).
    - apply nth_error_None. apply nth_error_None in S. lia. }
  clear L E N. revert t Q. induction s as [|c s IH]; intros [|d t] Q; auto.
  - specialize (Q 0). discriminate.
  - specialize (Q 0). discriminate.
  - pose proof (Q 0) as Q0. injection Q0 as ->. f_equal. apply IH. intros i. apply (Q (S i)).
Qed.
