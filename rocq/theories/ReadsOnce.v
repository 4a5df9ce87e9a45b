(** An AST says one list of rules. *)
From Verif Require Import Base Scanner Syntax Resolve Ast WbnfAst StrLit Build NumSpec NumProofs TextSpec.

Definition said (c : ctext) : Prop := (forall t c', reads t c -> reads t c' -> c' = c) /\ (forall n c', reads_atom n c -> reads_atom n c' -> c' = c).
Lemma said_all : forall l cs, Forall said cs -> Forall2 reads l cs -> forall cs', Forall2 reads l cs' -> cs' = cs.
Proof.
  intros l cs F H. induction H as [|t c l cs R H IH]; intros cs' H'; inversion H' as [|? c' ? cs2 R' H2]; subst; auto.
  inversion F as [|? ? [S _] F2]; subst. f_equal; eauto.
Qed.
Lemma said_named : forall n name name' a a', said a -> reads_named n name a -> reads_named n name' a' -> name' = name /\ a' = a.
Proof.
  intros n name name' a a' [_ S] H H'. inversion H; subst. inversion H'; subst. split; [congruence|].
  match goal with X : one "atom" n = Some ?u, Y : one "atom" n = Some ?v |- _ => assert (v = u) by congruence; subst v end. eauto.
Qed.
Lemma numeral_once : forall ds k k', numeral ds k -> numeral ds k' -> k' = k.
Proof. intros ds k k' H H'. apply numeral_digits in H as (_ & _ & H). apply numeral_digits in H' as (_ & _ & H'). lia. Qed.
Lemma bound_once : forall n k k', bound_of n k -> bound_of n k' -> k' = k.
Proof.
  intros n k k' (x & S & H) (x' & S' & H'). assert (x' = x) by congruence. subst x'. destruct H as [[-> ->]|[N _]], H' as [[E ->]|[N' _]]; auto.
  - apply numeral_digits in N' as (NE & _). discriminate.
  - subst x. apply numeral_digits in N as (NE & _). discriminate.
  - eapply numeral_once; eauto.
Qed.
Lemma direction_once : forall op a a', direction op a -> direction op a' -> a' = a.
Proof. intros op a a' H H'. inversion H; subst; inversion H'; subst; auto; discriminate. Qed.
Lemma said_quant : forall q u u', Forall said (qsep u) -> reads_quant q u -> reads_quant q u' -> u' = u.
Proof.
  intros q u u' F H H'. inversion H; subst; inversion H'; subst; try congruence.
  - f_equal. eapply bound_once; eauto.
  - match goal with X : one "min" q = Some ?u, Y : one "min" q = Some ?v |- _ => assert (v = u) by congruence; subst v end.
    match goal with X : string_of (Some ?m) = COk ?u, Y : string_of (Some ?m) = COk ?v |- _ => assert (v = u) by congruence; subst v end.
    f_equal; eapply bound_once; eauto.
  - match goal with X : one_op q = COk ?u, Y : one_op q = COk ?v |- _ => assert (v = u) by congruence; subst v end.
    match goal with X : one "named" q = Some ?u, Y : one "named" q = Some ?v |- _ => assert (v = u) by congruence; subst v end.
    cbn [qsep] in F. inversion F as [|? ? S _]; subst.
    match goal with X : reads_named _ _ sep, Y : reads_named _ _ _ |- _ => destruct (said_named _ _ _ _ _ S X Y); subst end.
    f_equal; [eapply direction_once; eauto|congruence|congruence].
Qed.
Lemma said_quants : forall l qs, Forall (fun q => Forall said (qsep q)) qs -> Forall2 reads_quant l qs -> forall qs', Forall2 reads_quant l qs' -> qs' = qs.
Proof.
  intros l cs F H. induction H as [|t c l cs R H IH]; intros cs' H'; inversion H' as [|? c' ? cs2 R' H2]; subst; auto.
  inversion F; subst. f_equal; eauto. eapply said_quant; eauto.
Qed.
Lemma kind_once : forall n k k', kind_of n k -> kind_of n k' -> k' = k.
Proof. intros n k k' (b & -> & H) (b' & E & H'). congruence. Qed.
Lemma text_once : forall x n s s', text_at x n s -> text_at x n s' -> s' = s.
Proof. intros x n s s' (m & H & T) (m' & H' & T'). congruence. Qed.
Ltac kinds := match goal with X : kind_of ?n ?k, Y : kind_of ?n ?k' |- _ => pose proof (kind_once _ _ _ X Y) end; try discriminate.
Lemma reads_once : forall c, said c.
Proof.
  induction c as [x|v|v|i d|x|c IH|c IH| |cs IH|cs IH|cs IH|nm a qs IHa IHq] using ctext_ind'; split;
    try solve [intros t c' H H'; inversion H]; intros t c' H H'; inversion H; subst; inversion H'; subst; try congruence; try kinds.
  - f_equal. f_equal. eapply text_once; eauto.
  - match goal with X : text_at _ t ?u, Y : text_at _ t ?v |- _ => pose proof (text_once _ _ _ _ X Y); subst end. congruence.
  - match goal with X : text_at _ t ?u, Y : text_at _ t ?v |- _ => pose proof (text_once _ _ _ _ X Y); subst end. congruence.
  - match goal with X : one "lookahead" t = Some ?u, Y : one "lookahead" t = Some ?v |- _ => assert (v = u) by congruence; subst v end. f_equal. destruct IH as [IH _]. eapply IH; eassumption.
  - match goal with X : one "term" t = Some ?u, Y : one "term" t = Some ?v |- _ => assert (v = u) by congruence; subst v end. f_equal. destruct IH as [IH _]. eapply IH; eassumption.
  - f_equal. eapply said_all; eauto.
  - f_equal. eapply said_all; eauto.
  - f_equal. eapply said_all; eauto.
  - match goal with X : one "named" t = Some ?u, Y : one "named" t = Some ?v |- _ => assert (v = u) by congruence; subst v end.
    match goal with X : reads_named _ nm a, Y : reads_named _ _ _ |- _ => destruct (said_named _ _ _ _ _ IHa X Y); subst end. f_equal. eapply said_quants; eauto.
Qed.
Theorem grammar_once : forall n ps ps', reads_grammar n ps -> reads_grammar n ps' -> ps' = ps.
Proof.
  unfold reads_grammar. intros n ps ps' H. revert ps'. induction H as [|p [x cs] l ps [N T] H IH]; intros ps' H'; inversion H' as [|? [x' cs'] ? ps2 [N' T'] H2]; subst; auto.
  cbn [fst snd] in *. f_equal; [|auto]. f_equal; [congruence|]. eapply said_all; eauto. apply Forall_forall. intros c _. apply reads_once.
Qed.
