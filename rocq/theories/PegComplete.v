(** The reading of grammars is deterministic, and the parser finds what it allows. *)
From Verif Require Import Base Scanner Syntax Engine Resolve Compile Parse PegSpec CompileProofs FuelProofs PegProofs.
Local Open Scope Z_scope.

(** * Determinism *)

Lemma token_pattern_fun : forall w x pre p1 p2, token_pattern w x pre p1 -> token_pattern w x pre p2 -> p1 = p2.
Proof. intros w x pre p1 p2 H1 H2. apply apply_wrap_spec in H1, H2. congruence. Qed.

Lemma token_fun : forall E pat s o1 o2, token E pat s o1 -> token E pat s o2 -> o1 = o2.
Proof. intros E pat s o1 o2 H1 H2. destruct H1; inversion H2; subst; congruence. Qed.

Lemma ref_term_fun : forall v t1 t2, ref_term v t1 -> ref_term v t2 -> t1 = t2.
Proof. intros v t1 t2 H1 H2. apply term_from_ref_val_spec in H1, H2. congruence. Qed.

Lemma opt_sep_fun : forall t o1 o2 b, opt_sep t o1 b -> opt_sep t o2 b -> o1 = o2.
Proof. intros [[tag ex [|s cs]|s|]|] o1 o2 b; simpl; intros; subst; auto; tauto. Qed.

Lemma delim_flat_complete : forall cs ce o l, delim_items cs ce o l -> delim_flat cs ce o = Some l.
Proof.
  intros cs ce o l (tag & ex & cs1 & core & cs2 & lead & trail & first & more & pairs &
    -> & L1 & O1 & O2 & N & (t1 & x1 & t2 & x2 & r & ->) & PF & ->).
  apply delim_pairs_spec in PF. unfold delim_flat.
  set (core := Node t1 x1 (first :: Node t2 x2 more :: r)) in *.
  assert (GB : get1 (Node tag ex (cs1 ++ core :: cs2)) (if cs then 1 else 0)%nat = Some core).
  { simpl. rewrite <- L1. rewrite nth_error_app2 by lia. rewrite Nat.sub_diag. auto. }
  assert (GL : (if cs then obind (obind (get1 (Node tag ex (cs1 ++ core :: cs2)) 0) node_children) (fun x =>
                    Some (match x with [] => [] | s :: _ => [Empty; s] end)) else Some []) = Some lead).
  { destruct cs; simpl in O1; [|subst; auto].
    destruct cs1 as [|a cs1]; [discriminate|]. simpl in *.
    destruct a as [ta xa [|s ca]|s|]; simpl in *; try tauto; subst; auto. }
  assert (GT : (if ce then obind (obind (get1 (Node tag ex (cs1 ++ core :: cs2)) ((if cs then 1 else 0) + 1)%nat) node_children) (fun x =>
                    Some (match x with [] => [] | s :: _ => [s; Empty] end)) else Some []) = Some trail).
  { destruct ce; simpl in O2; [|subst; auto].
    destruct cs2 as [|a cs2]; [exfalso; apply N; auto|]. simpl. rewrite <- L1.
    rewrite nth_error_app2 by lia. replace (length cs1 + 1 - length cs1)%nat with 1%nat by lia. simpl in *.
    destruct a as [ta xa [|s ca]|s|]; simpl in *; try tauto; subst; auto. }
  cbv zeta. rewrite GL. cbn [obind]. rewrite GB. cbn [obind].
  replace (get1 core 0) with (Some first) by reflexivity. cbn [obind].
  replace (obind (get1 core 1) node_children) with (Some more) by reflexivity. cbn [obind].
  rewrite PF. cbn [obind].
  rewrite GT. reflexivity.
Qed.

Lemma fold_l2r_snoc : forall rest tag h w s x, fold_l2r tag h rest = Some w ->
  fold_l2r tag h (rest ++ [s; x]) = Some (Node tag (XAssoc LeftToRight) [w; s; x]).
Proof.
  fix IH 1. intros [|a [|b rest]] tag h w s x H; simpl in H; try discriminate.
  - inversion H; subst. reflexivity.
  - simpl. apply IH. auto.
Qed.

Lemma fold_r2l_snoc : forall rest tag h w s x, fold_r2l tag h rest = Some w ->
  fold_r2l tag h (rest ++ [s; x]) = Some (Node tag (XAssoc RightToLeft) [x; s; w]).
Proof.
  fix IH 1. intros [|a [|b rest]] tag h w s x H; simpl in H; try discriminate.
  - inversion H; subst. reflexivity.
  - simpl. apply IH. auto.
Qed.

Lemma nest_left_fold : forall tag l v, nest_left tag l v ->
  exists h rest, l = h :: rest /\ fold_l2r tag h rest = Some v.
Proof.
  induction 1 as [v|l v s x N (h & rest & -> & F)]; [exists v, []; auto|].
  exists h, (rest ++ [s; x]). split; auto. apply fold_l2r_snoc; auto.
Qed.

Lemma nest_right_fold : forall tag l v, nest_right tag l v ->
  exists h rest, rev l = h :: rest /\ fold_r2l tag h rest = Some v.
Proof.
  induction 1 as [v|l v s x N (h & rest & R & F)]; [exists v, []; auto|].
  exists h, (rest ++ [s; x]). split; [|apply fold_r2l_snoc; auto].
  simpl. rewrite R. rewrite <- app_assoc. auto.
Qed.

Lemma delim_fold_complete : forall rule a l v, delim_result rule a l v ->
  delim_fold (rule_or_alt rule delimTag) a l = Some v.
Proof.
  intros rule a l v H. unfold delim_result in H. rewrite tag_or_alt.
  assert (SH : forall b, (length l <= 1)%nat -> delim_fold (tag_or rule delimTag) b l =
    Some (Node (tag_or rule delimTag) (XAssoc NonAssociative) l)).
  { intros b L. destruct l as [|x [|y l]]; simpl in L; try lia; destruct b; auto. }
  destruct a.
  - destruct H as [[L ->]|[L N]]; [apply SH; auto|].
    destruct (nest_right_fold _ _ _ N) as (h & rest & R & F).
    destruct l as [|x [|y l]]; simpl in L; try lia. unfold delim_fold. rewrite R. auto.
  - subst. destruct l as [|x [|y l]]; auto.
  - destruct H as [[L ->]|[L N]]; [apply SH; auto|].
    destruct (nest_left_fold _ _ _ N) as (h & rest & -> & F).
    destruct rest as [|y l]; simpl in L; try lia. simpl. auto.
Qed.

Lemma delim_node_complete : forall rule a cs ce o items v, delim_items cs ce o items ->
  delim_result rule a items v -> delim_node rule a cs ce o = Some v.
Proof.
  intros. unfold delim_node. rewrite (delim_flat_complete _ _ _ _ H). simpl.
  apply delim_fold_complete; auto.
Qed.

Theorem peg_deterministic : forall E,
  (forall gs vs r t s o, peg E gs vs r t s o -> forall o', peg E gs vs r t s o' -> o = o') /\
  (forall gs vs cut r ts acc s o, peg_seq E gs vs cut r ts acc s o ->
     forall o', peg_seq E gs vs cut r ts acc s o' -> o = o') /\
  (forall gs vs r i ts s o, peg_alt E gs vs r i ts s o -> forall o', peg_alt E gs vs r i ts s o' -> o = o') /\
  (forall gs vs r mn mx t acc s o, peg_rep E gs vs r mn mx t acc s o ->
     forall o', peg_rep E gs vs r mn mx t acc s o' -> o = o').
Proof.
  intros E. apply peg_mutind.
  - intros gs vs r x s pat o TP T o' H. inversion H; subst.
    match goal with A : token_pattern _ _ _ ?p |- _ =>
      assert (p = pat) by (eapply token_pattern_fun; eauto); subst end. eapply token_fun; eauto.
  - intros gs vs r x s pat o TP T o' H. inversion H; subst.
    match goal with A : token_pattern _ _ _ ?p |- _ =>
      assert (p = pat) by (eapply token_pattern_fun; eauto); subst end. eapply token_fun; eauto.
  - intros gs vs r n t s o P IH o' H. inversion H; subst; auto.
  - intros gs vs r t s o P IH o' H. inversion H; subst; auto.
  - intros gs vs r t g s o P IH o' H. inversion H; subst; auto.
  - intros gs vs r x gs' t s o RB P IH o' H. inversion H; subst.
    match goal with A : rule_body _ _ ?g2 ?t2 |- _ => destruct (rule_body_fun _ _ _ _ RB _ _ A); subst end. auto.
  - intros gs vs r ts s o P IH o' H. inversion H; subst; auto.
  - intros gs vs r ts s o P IH o' H. inversion H; subst; auto.
  - intros gs vs r t mn mx s o P IH o' H. inversion H; subst; auto.
  - intros gs vs r t sep a cs ce s v s' items v' P IH DI DR o' H. inversion H; subst.
    + match goal with A : peg E gs vs r (delim_seq _ _ _ _) s (Succ ?v2 _) |- _ =>
        assert (Q : Succ v s' = Succ v2 s'0) by auto end. inversion Q; subst.
      assert (items = items0).
      { apply delim_flat_complete in DI.
        match goal with A : delim_items _ _ _ items0 |- _ => apply delim_flat_complete in A end. congruence. }
      subst. apply delim_fold_complete in DR.
      match goal with A : delim_result _ _ _ v'0 |- _ => apply delim_fold_complete in A end. congruence.
    + match goal with A : peg E gs vs r (delim_seq _ _ _ _) s o' |- _ => apply IH in A; subst end.
      match goal with A : _ \/ _ |- _ => destruct A; discriminate end.
  - intros gs vs r t sep a cs ce s o O P IH o' H. inversion H; subst; auto.
    match goal with A : peg E gs vs r (delim_seq _ _ _ _) s (Succ _ _) |- _ => apply IH in A; subst end.
    destruct O; discriminate.
  - intros gs vs r t s v s' P IH o' H. inversion H; subst.
    + match goal with A : peg E gs vs "" t s (Succ _ _) |- _ => apply IH in A; inversion A; subst; auto end.
    + match goal with A : peg E gs vs "" t s o' |- _ => apply IH in A; subst end.
      match goal with A : _ \/ _ |- _ => destruct A; discriminate end.
  - intros gs vs r t s o O P IH o' H. inversion H; subst; auto.
    match goal with A : peg E gs vs "" t s (Succ _ _) |- _ => apply IH in A; subst end.
    destruct O; discriminate.
  - intros gs vs r i d s v t v' s' L R P IH T o' H. inversion H; subst;
      try congruence;
      repeat match goal with
      | A : lookup i vs = Some ?w, B : lookup i vs = Some ?u |- _ =>
          first [constr_eq w u; fail 1|assert (w = u) by congruence; subst]
      end;
      match goal with A : ref_term ?w ?u, B : ref_term ?w ?u2 |- _ =>
        first [constr_eq u u2; fail 1|assert (u = u2) by (eapply ref_term_fun; eauto); subst] end;
      match goal with A : peg E [] vs i _ s ?o2 |- _ => first [assert (Q : Succ v' s' = o2) by (apply IH; exact A); clear A]
        end; try (inversion Q; subst; congruence).
  - intros gs vs r i d s v t v' s' L R P IH T o' H. inversion H; subst;
      try congruence;
      repeat match goal with
      | A : lookup i vs = Some ?w, B : lookup i vs = Some ?u |- _ =>
          first [constr_eq w u; fail 1|assert (w = u) by congruence; subst]
      end;
      match goal with A : ref_term ?w ?u, B : ref_term ?w ?u2 |- _ =>
        first [constr_eq u u2; fail 1|assert (u = u2) by (eapply ref_term_fun; eauto); subst] end;
      match goal with A : peg E [] vs i _ s ?o2 |- _ => first [assert (Q : Succ v' s' = o2) by (apply IH; exact A); clear A]
        end; try (inversion Q; subst; congruence).
    match goal with A : _ \/ _ |- _ => destruct A; subst; discriminate end.
  - intros gs vs r i d s v t o L R O P IH o' H. inversion H; subst;
      try congruence;
      repeat match goal with
      | A : lookup i vs = Some ?w, B : lookup i vs = Some ?u |- _ =>
          first [constr_eq w u; fail 1|assert (w = u) by congruence; subst]
      end;
      match goal with A : ref_term ?w ?u, B : ref_term ?w ?u2 |- _ =>
        first [constr_eq u u2; fail 1|assert (u = u2) by (eapply ref_term_fun; eauto); subst] end;
      match goal with A : peg E [] vs i _ s ?o2 |- _ => first [assert (Q : o = o2) by (apply IH; exact A); clear A]
        end; subst; auto; destruct O; discriminate.
  - intros gs vs r i d s o L P IH o' H. inversion H; subst; try congruence; auto.
  - intros gs vs r i s L o' H. inversion H; subst; try congruence; auto.
  - (* PS_done *) intros gs vs cut r acc s o' H. inversion H; subst; auto.
  - (* PS_next *) intros gs vs cut cut' r t ts acc s v s1 o P IHP C Q IHQ o' H. inversion H; subst.
    + match goal with A : peg E gs vs "" t s (Succ _ _) |- _ => apply IHP in A; inversion A; subst end.
      assert (cut' = cut'0) by (destruct C as [[? ?]|[? ?]];
        match goal with A : _ \/ _ |- _ => destruct A as [[? ?]|[? ?]] end; subst; tauto || auto).
      subst. auto.
    + match goal with A : peg E gs vs "" t s Fail |- _ => apply IHP in A; discriminate end.
    + match goal with A : peg E gs vs "" t s Abort |- _ => apply IHP in A; discriminate end.
  - intros gs vs cut r t ts acc s P IHP o' H. inversion H; subst; auto;
      match goal with A : peg E gs vs "" t s _ |- _ => apply IHP in A; discriminate end.
  - intros gs vs cut r t ts acc s P IHP o' H. inversion H; subst; auto;
      match goal with A : peg E gs vs "" t s _ |- _ => apply IHP in A; discriminate end.
  - intros gs vs r i s o' H. inversion H; subst; auto.
  - intros gs vs r i t ts s v s' P IHP o' H. inversion H; subst; auto;
      match goal with A : peg E gs vs "" t s _ |- _ => apply IHP in A; inversion A; subst; auto end.
  - intros gs vs r i t ts s o P IHP Q IHQ o' H. inversion H; subst; auto;
      match goal with A : peg E gs vs "" t s _ |- _ => apply IHP in A; inversion A; subst; auto end.
  - intros gs vs r i t ts s P IHP o' H. inversion H; subst; auto;
      match goal with A : peg E gs vs "" t s _ |- _ => apply IHP in A; inversion A; subst; auto end.
  - intros gs vs r mn mx t acc s v s1 o RM P IHP Q IHQ o' H. inversion H; subst; try tauto;
      match goal with A : peg E gs vs "" t s _ |- _ => apply IHP in A; inversion A; subst; auto end.
  - intros gs vs r mn mx t acc s RM P IHP o' H. inversion H; subst; try tauto;
      match goal with A : peg E gs vs "" t s _ |- _ => apply IHP in A; inversion A; subst; auto end.
  - intros gs vs r mn mx t acc s RM o' H. inversion H; subst; try tauto.
  - intros gs vs r mn mx t acc s RM P IHP o' H. inversion H; subst; try tauto;
      match goal with A : peg E gs vs "" t s _ |- _ => apply IHP in A; inversion A; subst; auto end.
Qed.

(** * Completeness: what the grammar allows, the parser does *)

Definition yields (rnd : nat -> Z) (o : outcome) (cut : Z) (k : nat) (r : out) : Prop :=
  match o, r with
  | Succ v s, (ROk v', s', k') => v' = v /\ s' = s /\ (k <= k')%nat
  | Fail, (RErr e, _, k') => (k <= k')%nat /\ mine e cut
  | Abort, (RErr e, _, k') => (k <= k')%nat /\ aborts rnd k k' e
  | _, _ => False
  end.

Lemma yields_finished : forall rnd o cut k r, yields rnd o cut k r -> finished r.
Proof. intros rnd [v s| |] cut k [[[v'|e| |] s'] k'] H; simpl in H; try tauto; discriminate. Qed.

Lemma yields_widen : forall rnd o cut k k1 r, (k <= k1)%nat -> yields rnd o cut k1 r -> yields rnd o cut k r.
Proof.
  intros rnd [v s| |] cut k k1 [[[v'|e| |] s'] k'] L H; simpl in *; try tauto.
  - intuition lia.
  - intuition lia.
  - destruct H as (H & r & j & A & B). split; [lia|]. exists r, j. split; auto. lia.
Qed.

Lemma yields_fail : forall rnd cut k s k' rule, (k <= k')%nat ->
  yields rnd Fail cut k (RErr (new_parse_error rule cut), s, k').
Proof. intros. simpl. split; auto. apply new_parse_error_mine. Qed.

Section Complete.
  Variable c : config.
  Hypothesis no_escape : cf_esc c = None.
  Hypothesis ids : ids_ok (cf_rnd c).
  Variable refs : bool.
  Notation E := (cf_eng c).
  Notation rnd := (cf_rnd c).
  Hypothesis lits : refs = true -> forall x, re_valid E (anchor ++ group (quote_meta x)) = true.

  Definition all_hooked (gs : grammars) : Prop :=
    Forall (fun g => nested_ok g /\ forall r u, lookup r g = Some u -> hooked refs u = true) gs.

  Lemma more_fuel : forall f f' e p sc s k o cut k0, (f <= f')%nat ->
    yields rnd o cut k0 (parse c f e p sc s k) -> yields rnd o cut k0 (parse c f' e p sc s k).
  Proof.
    intros. rewrite (parse_mono c f f' e H p sc s k); auto. eapply yields_finished; eauto.
  Qed.

  (** The body a link leads to is compiled, hooked up and not a placeholder. *)
  Lemma rule_body_link : forall e gs x gs' t, env_ok E e gs -> all_hooked gs -> rule_body gs x gs' t ->
    exists q e', resolve_link e x = Some (q, e') /\ env_ok E e' gs' /\ all_hooked gs' /\
      comp E gs' x t q /\ plain t = true /\ hooked refs t = true /\ is_prule q = false.
  Proof.
    intros e gs x gs' t HE. revert x gs' t.
    induction HE as [|rules e g gs HE IH Hc Hp]; intros x gs' t HH RB; [inversion RB|].
    inversion HH as [|? ? [HN HK] HH']; subst.
    pose proof (compile_rules_lookup _ _ _ _ x Hc) as L. simpl. inversion RB; subst.
    - destruct (lookup x rules) as [q|] eqn:Lq; [|congruence].
      destruct L as (u & u' & L1 & L2 & L3).
      assert (u = t0) by congruence. subst u.
      assert (u' = t) by (eapply alias_body_fun; eauto). subst u'.
      exists q, (rules :: e). split; auto. split; [constructor; auto|]. split; auto. split; auto.
      split; [eapply (alias_body_in (fun z => plain z = true)); eauto|].
      split; [eapply (alias_body_in (fun z => hooked refs z = true)); eauto|].
      eapply nested_not_prule; eauto.
    - destruct (lookup x rules) as [q|] eqn:Lq.
      + destruct L as (u & u' & L1 & _). congruence.
      + apply IH; auto.
  Qed.

  Definition c_peg (gs : grammars) (vs : bindings) (r : string) (t : term) (s : scanner) (o : outcome) : Prop :=
    forall e p sc k, env_ok E e gs -> all_hooked gs -> comp E gs r t p -> plain t = true ->
      hooked refs t = true -> svals sc = vs -> cut_ok rnd k (scut sc) ->
      exists f, yields rnd o (scut sc) k (parse c f e (reg p) sc s k).
  Definition c_seq (gs : grammars) (vs : bindings) (cut : bool) (r : string) (ts : list term) (acc : list tree)
    (s : scanner) (o : outcome) : Prop :=
    forall e ps sc k cut0 k0, env_ok E e gs -> all_hooked gs -> elems c gs ts ps -> forallb plain ts = true ->
      forallb (hooked refs) ts = true -> svals sc = vs -> (k0 <= k)%nat -> cut_ok rnd k0 cut0 ->
      (cut = false /\ scut sc = cut0 \/ cut = true /\ exists j, (k0 <= j < k)%nat /\ scut sc = rnd j) ->
      exists f, yields rnd o cut0 k0
        (seq_loop c (parse c f e) (is_cut e) r (map ident_from_term ts) ps sc s k acc).
  Definition c_alt (gs : grammars) (vs : bindings) (r : string) (i : nat) (ts : list term)
    (s : scanner) (o : outcome) : Prop :=
    forall e ps sc prevcp mycp far k k0, env_ok E e gs -> all_hooked gs -> elems c gs ts ps ->
      forallb plain ts = true -> forallb (hooked refs) ts = true -> svals sc = vs ->
      scut sc = mycp -> cut_ok rnd k mycp -> (k0 <= k)%nat ->
      exists f, yields rnd o prevcp k0 (oneof_loop (parse c f e) r i ps sc prevcp mycp s far k).
  Definition c_rep (gs : grammars) (vs : bindings) (r : string) (mn mx : nat) (t : term) (acc : list tree)
    (s : scanner) (o : outcome) : Prop :=
    forall e p0 sc prevcp mycp k k0, env_ok E e gs -> all_hooked gs -> comp E gs "" t p0 ->
      plain t = true -> hooked refs t = true -> svals sc = vs ->
      scut sc = mycp -> cut_ok rnd k mycp -> (k0 <= k)%nat ->
      exists f, yields rnd o prevcp k0 (quant_loop (parse c f e) f r mn mx (reg p0) sc prevcp mycp s k acc).

  Lemma reg_not_prule : forall p, is_prule p = false -> reg p = p.
  Proof. destruct p; auto; discriminate. Qed.

  Lemma token_yields : forall re s o rule cut k, token E re s o ->
    yields rnd o cut k match eat_token E (anchor ++ re) s with
      | TokPanic => (RPanic, s, k)
      | TokNo => (RErr (new_parse_error rule cut), s, k)
      | TokOk leaf rest => (ROk (Leaf leaf), rest, k)
      end.
  Proof.
    intros re s o rule cut k H. unfold eat_token, eat_regexp.
    destruct H as [t E1 E2|t b g E1 E2|t b h g E1 E2]; rewrite E1, E2.
    - apply yields_fail; auto.
    - simpl. auto.
    - simpl. auto.
  Qed.

  Lemma hooked_delim_seq : forall t sep a cs ce, hooked refs (TDelim t sep a cs ce) = true ->
    hooked refs (delim_seq t sep cs ce) = true.
  Proof.
    intros t sep a cs ce H. simpl in H. apply andb_true_iff in H as [H1 H2].
    unfold delim_seq, Opt, Any. destruct cs, ce; simpl; rewrite H1, H2; auto.
  Qed.

  Lemma ref_term_hooked : forall v t, ref_term v t -> hooked refs t = true.
  Proof.
    induction v as [tag x cs IH|s0|] using tree_ind'; intros t R; inversion R; subst; auto.
    simpl. match goal with H : Forall2 _ _ _ |- _ => revert H end. clear R.
    revert ts. induction IH; intros ts F; inversion F; subst; simpl; auto.
    apply andb_true_iff. split; eauto.
  Qed.

  (** Literals standing for values compile. *)
  Lemma ref_term_compiles : refs = true -> forall v t, ref_term v t -> forall rule,
    exists p, term_parser E t None rule = COk p /\ is_prule p = false.
  Proof.
    intros HR. induction v as [tag x cs IH|s0|] using tree_ind'; intros t R rule; inversion R; subst.
    - match goal with H : Forall2 _ _ _ |- _ => rename H into F end. clear R.
      assert (G : exists ps, ctraverse (fun x => cbind (term_parser E x None "") (fun p => COk (reg p))) ts = COk ps).
      { revert ts F. induction IH as [|v cs Hv Hcs IHc]; intros ts F; inversion F; subst; simpl; eauto.
        destruct (Hv _ H1 ""%string) as (p & -> & _). destruct (IHc _ H3) as (ps & ->). simpl. eauto. }
      destruct G as (ps & G). simpl. rewrite G. simpl. eauto.
    - simpl. unfold must_compile. rewrite lits by auto. simpl. eauto.
  Qed.

  Lemma lit_compiles : refs = true -> forall d rule,
    exists p, term_parser E (TS d) None rule = COk p /\ is_prule p = false.
  Proof. intros HR d rule. simpl. unfold must_compile. rewrite lits by auto. simpl. eauto. Qed.

  Ltac start := cbn [reg parse]; unfold with_escape; rewrite no_escape.

  Theorem parse_complete :
    (forall gs vs r t s o, peg E gs vs r t s o -> c_peg gs vs r t s o) /\
    (forall gs vs cut r ts acc s o, peg_seq E gs vs cut r ts acc s o -> c_seq gs vs cut r ts acc s o) /\
    (forall gs vs r i ts s o, peg_alt E gs vs r i ts s o -> c_alt gs vs r i ts s o) /\
    (forall gs vs r mn mx t acc s o, peg_rep E gs vs r mn mx t acc s o -> c_rep gs vs r mn mx t acc s o).
  Proof.
    apply peg_mutind.
    - (* P_lit *) intros gs vs r x s pat o TP T e p sc k HE HH HC HP HK HV HU.
      unfold comp in HC. simpl in HC. apply cbind_ok in HC as (re & Hre & HC).
      apply cbind_ok in HC as (re' & Hm & HC). inversion HC; subst; clear HC.
      unfold must_compile in Hm. destruct (re_valid E (anchor ++ re)); [|discriminate].
      assert (re' = anchor ++ re) by congruence. subst re'.
      apply apply_wrap_spec in Hre. assert (re = pat) by (eapply token_pattern_fun; eauto). subst re.
      exists 1%nat. start. apply token_yields; auto.
    - (* P_re *) intros gs vs r x s pat o TP T e p sc k HE HH HC HP HK HV HU.
      unfold comp in HC. simpl in HC. apply cbind_ok in HC as (re & Hre & HC).
      apply cbind_ok in HC as (re' & Hm & HC). inversion HC; subst; clear HC.
      unfold must_compile in Hm. destruct (re_valid E (anchor ++ re)); [|discriminate].
      assert (re' = anchor ++ re) by congruence. subst re'.
      apply apply_wrap_spec in Hre. assert (re = pat) by (eapply token_pattern_fun; eauto). subst re.
      exists 1%nat. start. apply token_yields; auto.
    - (* P_named *) intros gs vs r n t s o P IH e p sc k HE HH HC HP HK HV HU. apply (IH e p); auto.
    - (* P_cut *) intros gs vs r t s o P IH e p sc k HE HH HC HP HK HV HU.
      unfold comp in HC. simpl in HC. apply cbind_ok in HC as (q & Hq & HC). inversion HC; subst; clear HC.
      simpl in HK. apply andb_true_iff in HK as [HK1 HK2]. apply negb_true_iff in HK1.
      destruct (IH e q sc k HE HH Hq HP HK2 eq_refl HU) as (f & Y).
      rewrite reg_not_prule in Y by (eapply headrule_false; eauto).
      exists (S f). exact Y.
    - (* P_scoped *) intros gs vs r t g s o P IH e p sc k HE HH HC HP HK HV HU.
      unfold comp in HC. simpl in HC.
      apply cbind_ok in HC as (rules & Hr & HC). apply cbind_ok in HC as (q & Hq & HC).
      destruct (plain_scoped _ _ HP) as (HP1 & HP2 & HN).
      simpl in HK. apply andb_true_iff in HK as [HK1 HK2].
      change (compile_rules (rule_fns E (wrap_of (g :: gs)) g) = COk rules) in Hr.
      change (term_parser E t (wrap_of (g :: gs)) r = COk q) in Hq.
      assert (HE' : env_ok E (rules :: e) (g :: gs)) by (constructor; auto).
      assert (HH' : all_hooked (g :: gs)).
      { constructor; auto. split; auto. intros x u L. rewrite forallb_forall in HK2.
        apply lookup_In in L. apply HK2 in L. auto. }
      destruct (IH (rules :: e) q sc k HE' HH' Hq HP1 HK1 HV HU) as (f & Y).
      inversion HC; subst p; clear HC. unfold scoped_result.
      assert (G : is_prule q = false -> exists f, yields rnd o (scut sc) k (parse c f e (PScoped rules q) sc s k)).
      { intros Q. rewrite (reg_not_prule q Q) in Y. exists (S f). exact Y. }
      destruct q; try (apply G; reflexivity). clear G. cbn [reg] in *.
      destruct f as [|f]; [destruct o; contradiction|].
      destruct (lookup t0 rules) as [q|] eqn:Lq.
      + pose proof (nested_not_prule _ _ _ _ _ _ Hr HN Lq) as NP.
        assert (G : exists f, yields rnd o (scut sc) k (parse c f e (PScoped rules q) sc s k)).
        { exists (S f). cbn [parse resolve_link] in Y |- *. rewrite Lq in Y. exact Y. }
        destruct q; try exact G. discriminate.
      + exists (S f). cbn [reg parse resolve_link] in *. rewrite Lq in Y. exact Y.
    - (* P_rule *) intros gs vs r x gs' t s o RB P IH e p sc k HE HH HC HP HK HV HU.
      unfold comp in HC. simpl in HC. inversion HC; subst; clear HC. cbn [reg].
      destruct (rule_body_link _ _ _ _ _ HE HH RB) as (q & e' & RL & HE' & HH' & HC' & HP' & HK' & NP).
      destruct (IH e' q sc k HE' HH' HC' HP' HK' eq_refl HU) as (f & Y).
      rewrite (reg_not_prule q NP) in Y. exists (S f). cbn [parse]. rewrite RL. exact Y.
    - (* P_seq *) intros gs vs r ts s o P IH e p sc k HE HH HC HP HK HV HU.
      unfold comp in HC. simpl in HC. apply cbind_ok in HC as (ps & Hps & HC). inversion HC; subst; clear HC.
      apply ctraverse_elems in Hps.
      destruct (IH e ps sc k (scut sc) k HE HH Hps HP HK eq_refl (le_n _) HU) as (f & Y); [left; auto|].
      exists (S f). start. exact Y.
    - (* P_oneof *) intros gs vs r ts s o P IH e p sc k HE HH HC HP HK HV HU.
      unfold comp in HC. simpl in HC. apply cbind_ok in HC as (ps & Hps & HC). inversion HC; subst; clear HC.
      apply ctraverse_elems in Hps.
      destruct (replace_cut c false sc k) as [[[sc' prevcp] mycp] k1] eqn:RC.
      destruct (replace_cut_spec c ids _ _ _ _ _ _ HU RC) as (V & C1 & C2 & K1 & K2). subst prevcp.
      destruct (IH e ps sc' (scut sc) mycp s k1 k HE HH Hps HP HK V C1 K2 K1) as (f & Y).
      exists (S f). start. rewrite RC. exact Y.
    - (* P_quant *) intros gs vs r t mn mx s o P IH e p sc k HE HH HC HP HK HV HU.
      unfold comp in HC. simpl in HC. apply cbind_ok in HC as (q & Hq & HC). inversion HC; subst; clear HC.
      destruct (replace_cut c false sc k) as [[[sc' prevcp] mycp] k1] eqn:RC.
      destruct (replace_cut_spec c ids _ _ _ _ _ _ HU RC) as (V & C1 & C2 & K1 & K2). subst prevcp.
      destruct (IH e q sc' (scut sc) mycp k1 k HE HH Hq HP HK V C1 K2 K1) as (f & Y).
      exists (S f). start. rewrite RC. exact Y.
    - (* P_delim *) intros gs vs r t sep a cs ce s v s' items v' P IH DI DR e p sc k HE HH HC HP HK HV HU.
      destruct (delim_comp _ _ _ _ _ _ _ _ _ HC) as (child & -> & HD).
      destruct (IH e child sc k HE HH HD (plain_delim_seq _ _ _ _ _ HP) (hooked_delim_seq _ _ _ _ _ HK) HV HU)
        as (f & Y).
      rewrite reg_not_prule in Y by (eapply headrule_false; [exact HD|reflexivity]).
      exists (S f). start. destruct (parse c f e child sc s k) as [[[v0|er| |] s0] k0]; try contradiction.
      simpl in Y. destruct Y as (-> & -> & Y).
      rewrite (delim_node_complete _ _ _ _ _ _ _ DI DR). simpl. auto.
    - (* P_delim_no *) intros gs vs r t sep a cs ce s o O P IH e p sc k HE HH HC HP HK HV HU.
      destruct (delim_comp _ _ _ _ _ _ _ _ _ HC) as (child & -> & HD).
      destruct (IH e child sc k HE HH HD (plain_delim_seq _ _ _ _ _ HP) (hooked_delim_seq _ _ _ _ _ HK) HV HU)
        as (f & Y).
      rewrite reg_not_prule in Y by (eapply headrule_false; [exact HD|reflexivity]).
      exists (S f). start. destruct (parse c f e child sc s k) as [[[v0|er| |] s0] k0];
        destruct O; subst o; try contradiction; exact Y.
    - (* P_look *) intros gs vs r t s v s' P IH e p sc k HE HH HC HP HK HV HU.
      unfold comp in HC. simpl in HC. apply cbind_ok in HC as (q & Hq & HC). inversion HC; subst; clear HC.
      destruct (IH e q sc k HE HH Hq HP HK eq_refl HU) as (f & Y).
      exists (S f). start. destruct (parse c f e (reg q) sc s k) as [[[v0|er| |] s0] k0]; try contradiction.
      simpl in Y. destruct Y as (-> & -> & Y). simpl. auto.
    - (* P_look_no *) intros gs vs r t s o O P IH e p sc k HE HH HC HP HK HV HU.
      unfold comp in HC. simpl in HC. apply cbind_ok in HC as (q & Hq & HC). inversion HC; subst; clear HC.
      destruct (IH e q sc k HE HH Hq HP HK eq_refl HU) as (f & Y).
      exists (S f). start. destruct (parse c f e (reg q) sc s k) as [[[v0|er| |] s0] k0];
        destruct O; subst o; try contradiction; exact Y.
    - (* P_ref *) intros gs vs r i d s v t v' s' L R P IH T e p sc k HE HH HC HP HK HV HU.
      unfold comp in HC. simpl in HC, HK. inversion HC; subst p vs; clear HC.
      destruct (ref_term_compiles HK _ _ R i) as (q & TP & NP).
      destruct (IH [] q sc k (eo_nil _) (Forall_nil _) TP (ref_term_plain _ _ R) (ref_term_hooked _ _ R) eq_refl HU)
        as (f & Y). rewrite (reg_not_prule q NP) in Y.
      exists (S f). start. rewrite L. pose proof (proj2 (term_from_ref_val_spec _ _) R) as TF. rewrite TF, TP.
      destruct (parse c f [] q sc s k) as [[[v0|er| |] s0] k0]; try contradiction.
      simpl in Y. destruct Y as (-> & -> & Y).
      rewrite (proj2 (nodes_equal_texts _ _ _ R (ref_term_shape _ _ _ R _ _ _ _ _ _ P)) T). simpl. auto.
    - (* P_ref_differs *) intros gs vs r i d s v t v' s' L R P IH T e p sc k HE HH HC HP HK HV HU.
      unfold comp in HC. simpl in HC, HK. inversion HC; subst p vs; clear HC.
      destruct (ref_term_compiles HK _ _ R i) as (q & TP & NP).
      destruct (IH [] q sc k (eo_nil _) (Forall_nil _) TP (ref_term_plain _ _ R) (ref_term_hooked _ _ R) eq_refl HU)
        as (f & Y). rewrite (reg_not_prule q NP) in Y.
      exists (S f). start. rewrite L. pose proof (proj2 (term_from_ref_val_spec _ _) R) as TF. rewrite TF, TP.
      destruct (parse c f [] q sc s k) as [[[v0|er| |] s0] k0]; try contradiction.
      simpl in Y. destruct Y as (-> & -> & Y).
      pose proof (nodes_equal_texts _ _ _ R (ref_term_shape _ _ _ R _ _ _ _ _ _ P)) as NE.
      destruct (nodes_equal v' v); [exfalso; apply T; apply NE; auto|]. simpl. auto.
    - (* P_ref_no *) intros gs vs r i d s v t o L R O P IH e p sc k HE HH HC HP HK HV HU.
      unfold comp in HC. simpl in HC, HK. inversion HC; subst p vs; clear HC.
      destruct (ref_term_compiles HK _ _ R i) as (q & TP & NP).
      destruct (IH [] q sc k (eo_nil _) (Forall_nil _) TP (ref_term_plain _ _ R) (ref_term_hooked _ _ R) eq_refl HU)
        as (f & Y). rewrite (reg_not_prule q NP) in Y.
      exists (S f). start. rewrite L. pose proof (proj2 (term_from_ref_val_spec _ _) R) as TF. rewrite TF, TP.
      destruct (parse c f [] q sc s k) as [[[v0|er| |] s0] k0];
        destruct O; subst o; try contradiction; exact Y.
    - (* P_ref_default *) intros gs vs r i d s o L P IH e p sc k HE HH HC HP HK HV HU.
      unfold comp in HC. simpl in HC, HK. inversion HC; subst p vs; clear HC.
      destruct (lit_compiles HK d i) as (q & TP & NP).
      destruct (IH [] q sc k (eo_nil _) (Forall_nil _) TP eq_refl eq_refl eq_refl HU)
        as (f & Y). rewrite (reg_not_prule q NP) in Y.
      exists (S f). start. rewrite L, TP.
      destruct (parse c f [] q sc s k) as [[[v0|er| |] s0] k0]; destruct o; try contradiction; exact Y.
    - (* P_ref_unbound *) intros gs vs r i s L e p sc k HE HH HC HP HK HV HU.
      unfold comp in HC. simpl in HC, HK. inversion HC; subst p vs; clear HC.
      exists 1%nat. start. rewrite L. simpl. auto.
    - (* PS_done *) intros gs vs cut r acc s e ps sc k cut0 k0 HE HH HF HP HK HV Hk H0 Hcut.
      inversion HF; subst. exists O. simpl. auto.
    - (* PS_next *) intros gs vs cut cut' r t ts acc s v s1 o P IHP C Q IHQ e ps sc k cut0 k0 HE HH HF HP HK HV Hk H0 Hcut.
      inversion HF as [|? p ? ps' (p0 & HC & ->) HF']; subst. simpl in HP, HK.
      apply andb_true_iff in HP as [HP1 HP2]. apply andb_true_iff in HK as [HK1 HK2].
      assert (CK : cut_ok rnd k (scut sc)).
      { destruct Hcut as [[_ ->]|(_ & j & J & ->)]; [eapply cut_ok_mono; eauto|right; exists j; split; auto; lia]. }
      destruct (IHP e p0 sc k HE HH HC HP1 HK1 eq_refl CK) as (f1 & Y1).
      destruct (parse c f1 e (reg p0) sc s k) as [[[v0|er| |] s0] k'] eqn:R1; try contradiction.
      simpl in Y1. destruct Y1 as (-> & -> & Y1).
      pose proof (is_cut_commits c _ _ _ _ _ _ _ _ _ _ _ HE HC HP1 R1) as IC.
      set (sc1 := if is_cut e (reg p0) then mkScope (svals sc) (rnd k') else sc).
      set (k1 := if is_cut e (reg p0) then S k' else k').
      assert (B : exists f, yields rnd o cut0 k0 (seq_loop c (parse c f e) (is_cut e) r (map ident_from_term ts) ps'
                  (with_val sc1 (label t) v) s1 k1 (acc ++ [v]))).
      { apply IHQ; auto.
        - rewrite with_val_bind. unfold sc1. destruct (is_cut e (reg p0)); auto.
        - unfold k1. destruct (is_cut e (reg p0)); lia.
        - rewrite with_val_bind. cbn [scut]. unfold sc1, k1. destruct (is_cut e (reg p0)) eqn:Z.
          + right. destruct C as [[C ->]|[C _]]; [|exfalso; apply C, IC; auto].
            split; auto. exists k'. cbn [scut]. split; auto. lia.
          + destruct C as [[C _]|[C ->]]; [apply IC in C; discriminate|].
            destruct Hcut as [X|(X & j & J & Y)]; [left; auto|right; split; auto; exists j; split; auto; lia]. }
      destruct B as (f2 & Y2).
      exists (Nat.max f1 f2). cbn [map seq_loop].
      rewrite (parse_more c f1 (Nat.max f1 f2) _ _ _ _ _ _ _ _ R1) by (try discriminate; lia).
      cbn [hd tl]. rewrite label_ident.
      assert (SE : seq_loop c (parse c (Nat.max f1 f2) e) (is_cut e) r (map ident_from_term ts) ps'
                  (with_val sc1 (label t) v) s1 k1 (acc ++ [v]) =
                seq_loop c (parse c f2 e) (is_cut e) r (map ident_from_term ts) ps'
                  (with_val sc1 (label t) v) s1 k1 (acc ++ [v])).
      { apply seq_loop_ext; [apply parse_mono; lia|]. eapply yields_finished; eauto. }
      rewrite <- SE in Y2. unfold sc1, k1 in Y2. unfold replace_cut. rewrite orb_true_r.
      destruct (is_cut e (reg p0)); exact Y2.
    - (* PS_fail *) intros gs vs cut r t ts acc s P IHP e ps sc k cut0 k0 HE HH HF HP HK HV Hk H0 Hcut.
      inversion HF as [|? p ? ps' (p0 & HC & ->) HF']; subst. simpl in HP, HK.
      apply andb_true_iff in HP as [HP1 HP2]. apply andb_true_iff in HK as [HK1 HK2].
      assert (CK : cut_ok rnd k (scut sc)).
      { destruct Hcut as [[_ ->]|(_ & j & J & ->)]; [eapply cut_ok_mono; eauto|right; exists j; split; auto; lia]. }
      destruct (IHP e p0 sc k HE HH HC HP1 HK1 eq_refl CK) as (f & Y).
      exists f. cbn [map seq_loop].
      destruct (parse c f e (reg p0) sc s k) as [[[v0|er| |] s0] k']; try contradiction.
      simpl in Y. destruct Y as [K M].
      destruct (is_fatal er) eqn:F.
      + destruct er; simpl in F, M; try discriminate; try tauto. destruct M as [-> M].
        destruct Hcut as [[-> X]|(-> & j & J & X)]; simpl; (split; [lia|]); [rewrite <- X; auto|].
        rewrite X. exists rule, j. split; auto. lia.
      + destruct Hcut as [[-> X]|(-> & j & J & X)]; simpl; (split; [lia|]).
        * rewrite X. apply new_parse_error_mine.
        * destruct ids as [N _]. specialize (N j). unfold new_parse_error, cp_valid. rewrite X.
          destruct (Z.leb_spec 0 (rnd j)); [|lia]. exists r, j. split; auto. lia.
    - (* PS_abort *) intros gs vs cut r t ts acc s P IHP e ps sc k cut0 k0 HE HH HF HP HK HV Hk H0 Hcut.
      inversion HF as [|? p ? ps' (p0 & HC & ->) HF']; subst. simpl in HP, HK.
      apply andb_true_iff in HP as [HP1 HP2]. apply andb_true_iff in HK as [HK1 HK2].
      assert (CK : cut_ok rnd k (scut sc)).
      { destruct Hcut as [[_ ->]|(_ & j & J & ->)]; [eapply cut_ok_mono; eauto|right; exists j; split; auto; lia]. }
      destruct (IHP e p0 sc k HE HH HC HP1 HK1 eq_refl CK) as (f & Y).
      exists f. cbn [map seq_loop].
      destruct (parse c f e (reg p0) sc s k) as [[[v0|er| |] s0] k']; try contradiction.
      simpl in Y. destruct Y as (K & r' & j & -> & J). simpl. split; [lia|]. exists r', j. split; auto. lia.
    - (* PA_none *) intros gs vs r i s e ps sc prevcp mycp far k k0 HE HH HF HP HK HV HS HU Hk.
      inversion HF; subst. exists O. cbn [oneof_loop]. apply yields_fail; auto.
    - (* PA_here *) intros gs vs r i t ts s v s' P IHP e ps sc prevcp mycp far k k0 HE HH HF HP HK HV HS HU Hk.
      inversion HF as [|? p ? ps' (p0 & HC & ->) HF']; subst. simpl in HP, HK.
      apply andb_true_iff in HP as [HP1 HP2]. apply andb_true_iff in HK as [HK1 HK2].
      destruct (IHP e p0 sc k HE HH HC HP1 HK1 eq_refl HU) as (f & Y).
      exists f. cbn [oneof_loop].
      destruct (parse c f e (reg p0) sc s k) as [[[v0|er| |] s0] k']; try contradiction.
      simpl in Y. destruct Y as (-> & -> & Y). simpl. split; auto. split; auto. lia.
    - (* PA_next *) intros gs vs r i t ts s o P IHP Q IHQ e ps sc prevcp mycp far k k0 HE HH HF HP HK HV HS HU Hk.
      inversion HF as [|? p ? ps' (p0 & HC & ->) HF']; subst. simpl in HP, HK.
      apply andb_true_iff in HP as [HP1 HP2]. apply andb_true_iff in HK as [HK1 HK2].
      destruct (IHP e p0 sc k HE HH HC HP1 HK1 eq_refl HU) as (f1 & Y1).
      destruct (parse c f1 e (reg p0) sc s k) as [[[v0|er| |] s0] k'] eqn:R1; try contradiction.
      simpl in Y1. destruct Y1 as (K & M).
      destruct (IHQ e ps' sc prevcp (scut sc) (if offset far <? offset s0 then s0 else far) k' k0) as (f2 & Y2);
        auto; [eapply cut_ok_mono; eauto|lia|].
      exists (Nat.max f1 f2). cbn [oneof_loop].
      rewrite (parse_more c f1 (Nat.max f1 f2) _ _ _ _ _ _ _ _ R1) by (try discriminate; lia).
      rewrite not_my_fatal_mine by auto.
      rewrite (oneof_loop_ext (parse c f2 e) (parse c (Nat.max f1 f2) e)); auto;
        [apply parse_mono; lia|eapply yields_finished; eauto].
    - (* PA_abort *) intros gs vs r i t ts s P IHP e ps sc prevcp mycp far k k0 HE HH HF HP HK HV HS HU Hk.
      inversion HF as [|? p ? ps' (p0 & HC & ->) HF']; subst. simpl in HP, HK.
      apply andb_true_iff in HP as [HP1 HP2]. apply andb_true_iff in HK as [HK1 HK2].
      destruct (IHP e p0 sc k HE HH HC HP1 HK1 eq_refl HU) as (f & Y).
      exists f. cbn [oneof_loop].
      destruct (parse c f e (reg p0) sc s k) as [[[v0|er| |] s0] k']; try contradiction.
      simpl in Y. destruct Y as (K & AB).
      destruct (aborts_not_mine _ _ _ _ _ ids HU AB) as [-> _].
      simpl. split; [lia|]. destruct AB as (r' & j & -> & J). exists r', j. split; auto. lia.
    - (* PR_more *) intros gs vs r mn mx t acc s v s1 o RM P IHP Q IHQ e p0 sc prevcp mycp k k0 HE HH HC HP HK HV HS HU Hk.
      subst. destruct (IHP e p0 sc k HE HH HC HP HK eq_refl HU) as (f1 & Y1).
      destruct (parse c f1 e (reg p0) sc s k) as [[[v0|er| |] s0] k'] eqn:R1; try contradiction.
      simpl in Y1. destruct Y1 as (-> & -> & K).
      destruct (IHQ e p0 sc prevcp (scut sc) k' k0) as (f2 & Y2);
        auto; [eapply cut_ok_mono; eauto|lia|].
      exists (S (Nat.max f1 f2)). cbn [quant_loop]. apply room_iff in RM. rewrite RM.
      rewrite (parse_more c f1 (S (Nat.max f1 f2)) _ _ _ _ _ _ _ _ R1) by (try discriminate; lia).
      rewrite (quant_loop_ext (parse c f2 e) (parse c (S (Nat.max f1 f2)) e) r mn mx (reg p0)
                 (parse_mono c f2 (S (Nat.max f1 f2)) e ltac:(lia)) f2); auto;
        [lia|eapply yields_finished; eauto].
    - (* PR_stop *) intros gs vs r mn mx t acc s RM P IHP e p0 sc prevcp mycp k k0 HE HH HC HP HK HV HS HU Hk.
      subst. destruct (IHP e p0 sc k HE HH HC HP HK eq_refl HU) as (f1 & Y1).
      destruct (parse c f1 e (reg p0) sc s k) as [[[v0|er| |] s0] k'] eqn:R1; try contradiction.
      simpl in Y1. destruct Y1 as (K & M).
      exists (S f1). cbn [quant_loop]. apply room_iff in RM. rewrite RM.
      rewrite (parse_more c f1 (S f1) _ _ _ _ _ _ _ _ R1) by (try discriminate; lia).
      rewrite not_my_fatal_mine by auto.
      destruct (Nat.leb mn (length acc)); [simpl; split; auto; split; auto; lia|apply yields_fail; lia].
    - (* PR_full *) intros gs vs r mn mx t acc s RM e p0 sc prevcp mycp k k0 HE HH HC HP HK HV HS HU Hk.
      exists O. cbn [quant_loop].
      destruct (Nat.eqb mx 0 || Nat.ltb (length acc) mx) eqn:X; [apply room_iff in X; tauto|].
      destruct (Nat.leb mn (length acc)); [simpl; auto|apply yields_fail; lia].
    - (* PR_abort *) intros gs vs r mn mx t acc s RM P IHP e p0 sc prevcp mycp k k0 HE HH HC HP HK HV HS HU Hk.
      subst. destruct (IHP e p0 sc k HE HH HC HP HK eq_refl HU) as (f1 & Y1).
      destruct (parse c f1 e (reg p0) sc s k) as [[[v0|er| |] s0] k'] eqn:R1; try contradiction.
      simpl in Y1. destruct Y1 as (K & AB).
      exists (S f1). cbn [quant_loop]. apply room_iff in RM. rewrite RM.
      rewrite (parse_more c f1 (S f1) _ _ _ _ _ _ _ _ R1) by (try discriminate; lia).
      destruct (aborts_not_mine _ _ _ _ _ ids HU AB) as [-> _].
      simpl. split; [lia|]. destruct AB as (r' & j & -> & J). exists r', j. split; auto. lia.
  Qed.
End Complete.
