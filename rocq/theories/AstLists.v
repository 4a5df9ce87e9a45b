(** Associative lists of nodes do not convert. *)
From Verif Require Import Base Scanner Syntax Engine Resolve Compile Parse PegSpec Ast AstSpec AstProofs.

Lemma term_same_self : forall t, term_same t t = Some true \/ term_same t t = None.
Proof.
  induction t using term_ind'; simpl; auto using String.eqb_refl.
  - left. now rewrite String.eqb_refl.
  - left. now rewrite beqb_refl.
  - left. now rewrite beqb_refl.
  - left. rewrite String.eqb_refl. destruct d; simpl; auto. now rewrite beqb_refl.
  - left. now rewrite String.eqb_refl.
  - destruct IHt1 as [->| ->], IHt2 as [->| ->]; simpl; auto. destruct a, cs, ce; auto.
  - destruct IHt as [->| ->]; simpl; auto. rewrite !Nat.eqb_refl. auto.
  - rewrite String.eqb_refl. destruct IHt as [->| ->]; simpl; auto.
Qed.

Lemma each_get : forall B (F : nat -> tree -> B -> cres B) cs i st st', each F i cs st = COk st' ->
  forall j c, nth_error cs j = Some c -> exists a b, F (i + j) c a = COk b.
Proof.
  induction cs as [|c cs IH]; intros i st st' E j d N; [destruct j; discriminate|].
  simpl in E. apply cbind_inv in E as (b & E1 & E2). destruct j as [|j]; simpl in N.
  - inversion N; subst. rewrite Nat.add_0_r. eauto.
  - destruct (IH _ _ _ E2 j d N) as (a & b' & X). exists a, b'. rewrite Nat.add_succ_r. exact X.
Qed.

Section Stuck.
  Variables (t sep : term) (cs ce : bool).

  Lemma stuck_node : forall n a ctrs v st st', no_list v -> from_node n (Some (TDelim t sep a cs ce)) ctrs v st <> COk st'.
  Proof.
    intros [|n] a ctrs v [b g] st' (tag & x & ks & -> & N) H; [discriminate|]. simpl in H.
    destruct x; try discriminate. eapply N; eauto.
  Qed.

  Lemma stuck_inner : forall n a ctrs tag kids i v st st',
    nth_error kids i = Some v -> (exists tg x ks, v = Node tg x ks) -> lr_term t sep (TDelim t sep a cs ce) a i = TDelim t sep a cs ce ->
    (forall n ctrs st st', from_node n (Some (TDelim t sep a cs ce)) ctrs v st <> COk st') ->
    from_node n (Some (TDelim t sep a cs ce)) ctrs (Node tag (XAssoc a) kids) st <> COk st'.
  Proof.
    intros [|n] a ctrs tag kids i v [b g] st' NE (tg & x & ks & ->) LR IH H; [discriminate|].
    remember (TDelim t sep a cs ce) as self eqn:SE. rewrite SE in H. simpl in H.
    destruct (each_get _ _ _ _ _ _ H _ _ NE) as (a1 & b1 & X). simpl in X. rewrite <- SE, LR in X.
    destruct (term_same_self self) as [Q|Q]; rewrite Q in X; [|discriminate].
    apply cbind_inv in X as (c1 & _ & X). apply cbind_inv in X as (c2 & _ & X). apply cbind_inv in X as ([b2 g2] & X & _).
    eapply IH; eauto.
  Qed.

  Lemma stuck_left : forall tag items v, nest_left tag items v ->
    (exists x l, items = x :: l /\ no_list x) -> 1 < length items ->
    forall n ctrs st st', from_node n (Some (TDelim t sep LeftToRight cs ce)) ctrs v st <> COk st'.
  Proof.
    induction 1 as [v|l v s x NL IH]; intros (x0 & l0 & E & NX) L n ctrs st st'; [simpl in L; lia|].
    apply (stuck_inner n _ ctrs tag [v; s; x] 0 v); auto.
    - inversion NL; subst; eauto. simpl in E. inversion E; subst. destruct NX as (tg & ex & ks & -> & _). eauto.
    - intros n' ctrs' st1 st2. inversion NL; subst.
      + simpl in E. inversion E; subst. apply stuck_node; auto.
      + apply IH. { destruct l1 as [|y l1]; simpl in E |- *; inversion E; subst; eauto. }
        rewrite app_length. simpl. lia.
  Qed.

  Lemma stuck_right : forall tag items v, nest_right tag items v ->
    (exists l x, items = l ++ [x] /\ no_list x) -> 1 < length items ->
    forall n ctrs st st', from_node n (Some (TDelim t sep RightToLeft cs ce)) ctrs v st <> COk st'.
  Proof.
    induction 1 as [v|l v s x NR IH]; intros (l0 & x0 & E & NX) L n ctrs st st'; [simpl in L; lia|].
    assert (E2 : exists l1, l = l1 ++ [x0]).
    { destruct l0 as [|y0 [|y1 l0]]; simpl in E; inversion E; subst; eauto.
      - inversion NR. }
    destruct E2 as (l1 & ->).
    apply (stuck_inner n _ ctrs tag [x; s; v] 2 v); auto.
    - inversion NR; subst; eauto. destruct l1 as [|y l1]; simpl in *; [|destruct l1; discriminate].
      match goal with H : [_] = [_] |- _ => inversion H; subst end. destruct NX as (tg & ex & ks & -> & _). eauto.
    - intros n' ctrs' st1 st2. inversion NR as [w Q|l2 w s2 y2 NR2 Q]; subst.
      + destruct l1 as [|y l1]; simpl in *; [|destruct l1; discriminate]. inversion Q; subst. apply stuck_node; auto.
      + apply IH; [eauto|]. rewrite <- Q. simpl. lia.
  Qed.
End Stuck.

(** No amount of work makes an AST of a left or right associative list with at least one
    separator whose innermost item is a node but no list. *)
Theorem lists_never_convert : forall g r t sep a cs ce, r <> ""%string -> lookup r g = Some (TDelim t sep a cs ce) ->
  forall items v, delim_result r a items v -> 1 < length items ->
  match a with
  | LeftToRight => exists x l, items = x :: l /\ no_list x
  | RightToLeft => exists l x, items = l ++ [x] /\ no_list x
  | NonAssociative => False
  end ->
  forall n b g', from_parser_node n g v <> COk (b, g').
Proof.
  intros g r t sep a cs ce NR L items v D LI I n b g' H.
  assert (TG : exists x ks, v = Node r x ks).
  { destruct a; try contradiction; simpl in D; destruct D as [[D _]|[_ D]]; try lia; unfold tag_or in D;
      (destruct (String.eqb_spec r ""); [contradiction|]); inversion D; subst; simpl in *; try lia; eauto. }
  destruct TG as (x & ks & ->). simpl in H. rewrite L in H. apply cbind_inv in H as (cc & _ & H). revert H.
  destruct a; try contradiction; simpl in D; (destruct D as [[D _]|[_ D]]; [lia|]); unfold tag_or in D;
    (destruct (String.eqb_spec r ""); [contradiction|]).
  - eapply stuck_right; eauto.
  - eapply stuck_left; eauto.
Qed.
