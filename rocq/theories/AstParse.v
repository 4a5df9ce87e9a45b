(** Trees that parsing makes, seen from the ast package. *)
From Verif Require Import Base Scanner Syntax Engine PegSpec DerivSpec FlowProofs Resolve Compile Parse FlowSpec CutSpec ApiSpec ApiProofs Ast AstSpec AstProofs.

Lemma regular_make : forall tag x cs,
  match x with XBranch _ => False | XChoice _ => length cs = 1 | _ => True end -> Forall regular cs ->
  regular (Node tag x cs).
Proof.
  intros tag x cs H F. split; [exact H|]. clear H. induction F; simpl; auto.
Qed.
Lemma regular_kids : forall tag x cs, regular (Node tag x cs) -> Forall regular cs.
Proof. intros tag x cs H. now apply regular_node in H. Qed.

Lemma nest_left_regular : forall tag l v, nest_left tag l v -> Forall regular l -> regular v.
Proof.
  induction 1 as [v|l v s x N IH]; intros F; [now inversion F|].
  apply Forall_app in F as [F1 F2]. inversion F2 as [|? ? G1 G]; subst. inversion G; subst.
  apply regular_make; auto.
Qed.
Lemma nest_right_regular : forall tag l v, nest_right tag l v -> Forall regular l -> regular v.
Proof.
  induction 1 as [v|l v s x N IH]; intros F; [now inversion F|].
  inversion F as [|? ? F1 F']; subst. inversion F' as [|? ? F2 F3]; subst. apply regular_make; auto.
Qed.
Lemma delim_result_regular : forall r a items v, delim_result r a items v -> Forall regular items -> regular v.
Proof.
  intros r a items v H F. destruct a; simpl in H.
  - destruct H as [[_ ->]|[_ H]]; [apply regular_make; auto|eapply nest_right_regular; eauto].
  - subst. apply regular_make; auto.
  - destruct H as [[_ ->]|[_ H]]; [apply regular_make; auto|eapply nest_left_regular; eauto].
Qed.

Lemma pairs_flat_regular : forall ps l, pairs_flat ps l -> Forall regular ps -> Forall regular l.
Proof.
  induction 1 as [|p s x ps l (tag & ex & rest & ->) P IH]; intros F; auto.
  inversion F as [|? ? F1 F2]; subst. apply regular_kids in F1. inversion F1 as [|? ? G1 G2]; subst. inversion G2; subst.
  constructor; auto.
Qed.
Lemma opt_sep_regular : forall l lead o, Forall regular l -> opt_sep (hd_error l) o lead -> Forall regular o.
Proof.
  intros [|t l] lead o F H; simpl in H; [subst; constructor|]. inversion F as [|? ? F1 F2]; subst.
  destruct t as [tag x [|s cs]|s|]; try contradiction; [subst; constructor|].
  apply regular_kids in F1. inversion F1; subst.
  destruct lead; subst; repeat constructor; auto.
Qed.
Lemma delim_items_regular : forall cs ce v items, delim_items cs ce v items -> regular v -> Forall regular items.
Proof.
  intros cs ce v items (tag & ex & cs1 & core & cs2 & lead & trail & first & more & pairs & -> & L & O1 & O2 & _ & (t1 & x1 & t2 & x2 & rr & ->) & P & ->) R.
  apply regular_kids in R. apply Forall_app in R as [R1 R2]. inversion R2 as [|? ? R3 R4]; subst.
  apply regular_kids in R3. inversion R3 as [|? ? F1 F2]; subst. inversion F2 as [|? ? F3 F4]; subst.
  apply regular_kids in F3.
  apply Forall_app. split; [|constructor; auto; apply Forall_app; split].
  - destruct cs; [exact (opt_sep_regular cs1 true lead R1 O1)|]. cbn in O1. rewrite O1. constructor.
  - eapply pairs_flat_regular; eauto.
  - destruct ce; [exact (opt_sep_regular cs2 false trail R4 O2)|]. cbn in O2. rewrite O2. constructor.
Qed.

Lemma derives_regular : forall E,
  (forall gs vs r t s v s', derives E gs vs r t s v s' -> regular v) /\
  (forall gs vs ts s cs s', derives_all E gs vs ts s cs s' -> Forall regular cs) /\
  (forall gs vs t s cs s', derives_many E gs vs t s cs s' -> Forall regular cs).
Proof.
  intros E. apply derives_mutind; intros; auto; try (apply regular_make; simpl; auto; fail);
    try (match goal with H : token _ _ _ _ |- _ => inversion H; subst; exact I end).
  eapply delim_result_regular; eauto. eapply delim_items_regular; eauto.
Qed.

Lemma plain_no_ext : forall t, plain t = true -> no_ext t = true.
Proof.
  assert (X : forall ts, Forall (fun t => plain t = true -> no_ext t = true) ts -> forallb plain ts = true -> forallb no_ext ts = true).
  { intros ts F H. rewrite forallb_forall in *. rewrite Forall_forall in F. auto. }
  induction t using term_ind'; simpl; intros P; auto.
  - apply andb_true_iff in P as [P1 P2]. rewrite IHt1, IHt2; auto.
  - apply andb_true_iff in P as [P1 P2]. rewrite IHt by auto. simpl. rewrite forallb_forall in *.
    intros kv I. rewrite Forall_forall in H. apply H; auto. apply P2 in I. apply andb_true_iff in I. tauto.
Qed.

Theorem parsed_reads : forall c, cf_esc c = None -> forall g ps, compile (cf_eng c) g = COk ps -> readable g ->
  forall f r s v s', drawn_ok (cf_rnd c) (draws c f ps r s) -> result (parse_rule c f ps r s) v s' ->
  forall n b g', from_parser_node n g v = COk (b, g') -> reads (ABranch b) (leaves v).
Proof.
  intros c NE g ps C R f r s v s' D P n b g' H. eapply from_parser_node_reads; [..|exact H].
  - destruct R as [_ R]. unfold plain_grammar, no_ext_grammar in *. rewrite forallb_forall in *.
    intros kv I. apply plain_no_ext. auto.
  - eapply (proj1 (derives_regular (cf_eng c))). eapply result_derives; eauto.
Qed.
