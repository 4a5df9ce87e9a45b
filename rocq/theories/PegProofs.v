(** The parser agrees with the reading of grammars in PegSpec.v. *)
From Verif Require Import Base Scanner Syntax Engine Resolve Compile Parse PegSpec CompileProofs.
Local Open Scope Z_scope.

(** * Error bookkeeping *)

(** Random cut-point ids: never negative (rand.Int31) and pairwise different. *)
Definition ids_ok (rnd : nat -> Z) : Prop :=
  (forall i, 0 <= rnd i) /\ (forall i j, rnd i = rnd j -> i = j).

(** The cut point of a scope is invalid or was drawn earlier. *)
Definition cut_ok (rnd : nat -> Z) (k : nat) (cut : Z) : Prop :=
  cut = invalid_cp \/ exists j, (j < k)%nat /\ cut = rnd j.

(** An error the surrounding choice or repetition may recover from. *)
Definition mine (e : perr) (cut : Z) : Prop :=
  match e with EParse _ => True | EFatal _ c => c = cut /\ cp_valid cut = true | _ => False end.
(** An error that nobody recovers from: its id was drawn during this run. *)
Definition aborts (rnd : nat -> Z) (k k' : nat) (e : perr) : Prop :=
  exists r j, e = EFatal r (rnd j) /\ (k <= j < k')%nat.

Definition agrees (rnd : nat -> Z) (P : outcome -> Prop) (cut : Z) (k : nat) (o : out) : Prop :=
  match o with
  | (ROk v, s', k') => (k <= k')%nat /\ P (Succ v s')
  | (RErr e, _, k') => (k <= k')%nat /\ (mine e cut /\ P Fail \/ aborts rnd k k' e /\ P Abort)
  | _ => True
  end.

Lemma agrees_impl : forall rnd (P Q : outcome -> Prop) cut k o, (forall x, P x -> Q x) ->
  agrees rnd P cut k o -> agrees rnd Q cut k o.
Proof. intros rnd P Q cut k [[[v|e| |] s'] k'] H A; simpl in *; auto; intuition. Qed.

Lemma new_parse_error_mine : forall rule cut, mine (new_parse_error rule cut) cut.
Proof. intros. unfold new_parse_error. destruct (cp_valid cut) eqn:V; simpl; auto. Qed.

Lemma cut_ok_mono : forall rnd k k' cut, (k <= k')%nat -> cut_ok rnd k cut -> cut_ok rnd k' cut.
Proof. intros rnd k k' cut H [C|(j & J & C)]; [left; auto|right; exists j; split; auto; lia]. Qed.

Lemma cut_ok_valid : forall rnd k cut, ids_ok rnd -> cut_ok rnd k cut ->
  cp_valid cut = false -> cut = invalid_cp.
Proof.
  intros rnd k cut [N _] [C|(j & J & C)] H; auto. subst. unfold cp_valid in H.
  apply Z.leb_gt in H. specialize (N j). lia.
Qed.

Lemma not_my_fatal_mine : forall e cut, mine e cut -> not_my_fatal e cut = false.
Proof. intros [r|r c| | |] cut H; simpl in *; auto; try tauto.
  destruct H as [-> _]. rewrite Z.eqb_refl. auto. Qed.

(** An abort raised below a scope whose cut point is older is not taken for its own. *)
Lemma aborts_not_mine : forall rnd k k' e cut, ids_ok rnd -> cut_ok rnd k cut ->
  aborts rnd k k' e -> not_my_fatal e cut = true /\ ~ mine e cut.
Proof.
  intros rnd k k' e cut [N I] C (r & j & -> & J). simpl.
  assert (rnd j <> cut).
  { destruct C as [->|(i & Hi & ->)].
    - specialize (N j). unfold invalid_cp. lia.
    - intros H. apply I in H. lia. }
  split; [apply negb_true_iff, Z.eqb_neq; auto|tauto].
Qed.

(** * Tokens *)

Lemma eat_token_spec : forall E pat s,
  match eat_token E (anchor ++ pat) s with
  | TokPanic => True
  | TokNo => token E pat s Fail
  | TokOk leaf rest => token E pat s (Succ (Leaf leaf) rest)
  end.
Proof.
  intros E pat s. unfold eat_token, eat_regexp.
  destruct (sslice s) as [t|] eqn:Es; auto.
  destruct (re_find E (anchor ++ pat) t) as [locs|] eqn:Ef; [|econstructor; eauto].
  destruct locs as [|[a b] gs]; auto.
  destruct (Z.eqb_spec a 0); simpl; auto. subst.
  destruct gs as [|g1 [|g2 [|g3 gs]]]; simpl; auto.
  - eapply tok_one; eauto.
  - eapply tok_two; eauto.
Qed.

(** * Delimited lists *)

Lemma delim_pairs_spec : forall cs l, delim_pairs cs = Some l <-> pairs_flat cs l.
Proof.
  induction cs as [|p cs IH]; intros l; simpl.
  - split; intros H; [inversion H; constructor|inversion H; auto].
  - split.
    + intros H. destruct (get1 p 0) as [s|] eqn:E0; [|discriminate]. simpl in H.
      destruct (get1 p 1) as [t|] eqn:E1; [|discriminate]. simpl in H.
      destruct (delim_pairs cs) as [r|]; [|discriminate]. inversion H; subst.
      constructor; [|apply IH; auto].
      destruct p as [tag ex [|a [|b q]]| |]; simpl in *; try discriminate.
      inversion E0; inversion E1; subst. unfold pair_of; eauto.
    + intros H. inversion H as [|? s x ? l' P L]; subst.
      destruct P as (tag & ex & rest & ->). simpl. apply IH in L. rewrite L. auto.
Qed.

Lemma fold_l2r_spec : forall rest tag v w l, fold_l2r tag v rest = Some w ->
  nest_left tag l v -> nest_left tag (l ++ rest) w.
Proof.
  fix IH 1. intros [|s [|t rest]] tag v w l H N; simpl in H; try discriminate.
  - inversion H; subst. rewrite app_nil_r. auto.
  - replace (l ++ s :: t :: rest) with ((l ++ [s; t]) ++ rest) by (rewrite <- app_assoc; auto).
    eapply IH; eauto. constructor. auto.
Qed.

Lemma fold_r2l_spec : forall rest tag v w l, fold_r2l tag v rest = Some w ->
  nest_right tag l v -> nest_right tag (rev rest ++ l) w.
Proof.
  fix IH 1. intros [|s [|t rest]] tag v w l H N; simpl in H; try discriminate.
  - inversion H; subst. auto.
  - simpl rev. rewrite <- !app_assoc. simpl app.
    eapply IH; eauto. constructor. auto.
Qed.

Lemma delim_fold_spec : forall rule a l v,
  delim_fold (rule_or_alt rule delimTag) a l = Some v -> delim_result rule a l v.
Proof.
  intros rule a l v H. unfold delim_fold, delim_result in *. rewrite tag_or_alt in *.
  destruct a.
  - destruct l as [|x [|y l]]; try (inversion H; subst; left; simpl; split; auto; fail).
    right. split; [simpl; lia|].
    destruct (rev (x :: y :: l)) as [|z rest] eqn:R; [discriminate|].
    pose proof (fold_r2l_spec _ _ _ _ [z] H (nr_one _ _)) as G.
    replace (rev rest ++ [z]) with (x :: y :: l) in G; auto.
    rewrite <- (rev_involutive (x :: y :: l)), R. reflexivity.
  - inversion H; auto.
  - destruct l as [|x [|y l]]; try (inversion H; subst; left; simpl; split; auto; fail).
    right. split; [simpl; lia|]. simpl in H.
    apply (fold_l2r_spec (y :: l) _ x v [x] H (nl_one _ _)).
Qed.

Lemma get1_spec : forall t i x, get1 t i = Some x ->
  exists tag ex cs, t = Node tag ex cs /\ nth_error cs i = Some x.
Proof. intros [tag ex cs| |] i x H; simpl in H; try discriminate. eauto. Qed.

Lemma delim_flat_spec : forall cs ce o l, delim_flat cs ce o = Some l -> delim_items cs ce o l.
Proof.
  intros cs ce o l H. unfold delim_flat in H.
  set (body := if cs then 1%nat else 0%nat) in *.
  destruct (if cs then obind (obind (get1 o 0) node_children) (fun x =>
       Some match x with [] => [] | s :: _ => [Empty; s] end) else Some []) as [lead|] eqn:El; [|discriminate].
  cbn [obind] in H.
  destruct (get1 o body) as [core|] eqn:Ec; [|discriminate]. cbn [obind] in H.
  destruct (get1 core 0) as [first|] eqn:E0; [|discriminate]. cbn [obind] in H.
  destruct (get1 core 1) as [m|] eqn:E1; [|discriminate]. cbn [obind] in H.
  destruct m as [mt mx more| |]; try discriminate. cbn [obind node_children] in H.
  destruct (delim_pairs more) as [pairs|] eqn:Ep; [|discriminate]. cbn [obind] in H.
  destruct (if ce then obind (obind (get1 o (body + 1)) node_children) (fun x =>
       Some match x with [] => [] | s :: _ => [s; Empty] end) else Some []) as [trail|] eqn:Et; [|discriminate].
  cbn [obind] in H. inversion H; subst l; clear H.
  apply get1_spec in Ec as (tag & ex & ch & -> & Ec).
  apply get1_spec in E0 as (t1 & x1 & ch1 & -> & E0).
  destruct ch1 as [|f0 [|m0 r]]; simpl in E0, E1; try discriminate.
  inversion E0; inversion E1; subst f0 m0; clear E0 E1.
  assert (exists cs1 cs2, ch = cs1 ++ Node t1 x1 (first :: Node mt mx more :: r) :: cs2 /\ length cs1 = body)
    as (cs1 & cs2 & -> & L1).
  { apply nth_error_split in Ec as (l1 & l2 & -> & L). eauto. }
  exists tag, ex, cs1, (Node t1 x1 (first :: Node mt mx more :: r)), cs2, lead, trail, first, more, pairs.
  split; [auto|]. split; [auto|].
  split.
  { destruct cs; [|inversion El; simpl; auto].
    destruct cs1 as [|a [|b cs1]]; simpl in L1; try discriminate. simpl in El. simpl.
    destruct a as [ta xa [|s ca]| |]; simpl in *; try discriminate; inversion El; auto. }
  assert (Hc2 : ce = true -> exists c2 cs2', cs2 = c2 :: cs2' /\
     get1 (Node tag ex (cs1 ++ Node t1 x1 (first :: Node mt mx more :: r) :: cs2)) (body + 1) = Some c2).
  { intros ->. simpl in Et.
    simpl get1 in *. rewrite <- L1 in *. rewrite nth_error_app2 in * by lia.
    replace (length cs1 + 1 - length cs1)%nat with 1%nat in * by lia. simpl in *.
    destruct cs2 as [|c2 cs2]; [discriminate|]. eauto. }
  split.
  { destruct ce; [|inversion Et; simpl; auto].
    destruct Hc2 as (c2 & cs2' & -> & G); auto. rewrite G in Et. simpl in *.
    destruct c2 as [ta xa [|s ca]| |]; simpl in *; try discriminate; inversion Et; auto. }
  split.
  { intros C. destruct (Hc2 C) as (c2 & cs2' & -> & _). discriminate. }
  split; [eauto 10|]. split; [apply delim_pairs_spec; auto|auto].
Qed.

Lemma delim_node_spec : forall rule a cs ce o v, delim_node rule a cs ce o = Some v ->
  exists items, delim_items cs ce o items /\ delim_result rule a items v.
Proof.
  intros rule a cs ce o v H. unfold delim_node in H.
  destruct (delim_flat cs ce o) as [l|] eqn:E; [|discriminate]. simpl in H.
  exists l. split; [apply delim_flat_spec; auto|apply delim_fold_spec; auto].
Qed.

(** A delimited list compiles like the sequence it stands for. *)
Lemma delim_comp : forall E t sep a cs ce wrap rule p,
  term_parser E (TDelim t sep a cs ce) wrap rule = COk p ->
  exists child, p = PDelim rule a cs ce child /\
    term_parser E (delim_seq t sep cs ce) wrap rule = COk child.
Proof.
  intros E t sep a cs ce wrap rule p H. cbn [term_parser] in H.
  apply cbind_ok in H as (pt & Ht & H). apply cbind_ok in H as (ps & Hs & H).
  inversion H; subst; clear H. eexists; split; [reflexivity|].
  unfold delim_seq, Opt, Any. destruct cs, ce; simpl; rewrite Ht, Hs; reflexivity.
Qed.

(** * Back references *)

Lemma term_from_ref_val_spec : forall v t, term_from_ref_val v = Some t <-> ref_term v t.
Proof.
  induction v as [tag x cs IH|s|] using tree_ind'; intros t; simpl.
  - assert (G : forall ts, (fix go (l : list tree) : option (list term) :=
        match l with
        | [] => Some []
        | y :: l' => obind (term_from_ref_val y) (fun a => obind (go l') (fun ys => Some (a :: ys)))
        end) cs = Some ts <-> Forall2 ref_term cs ts).
    { induction IH as [|c cs Hc Hcs IHcs]; intros ts.
      - split; intros H; inversion H; auto.
      - split.
        + intros H. destruct (term_from_ref_val c) as [u|] eqn:E; [|discriminate]. cbn [obind] in H.
          destruct ((fix go (l : list tree) : option (list term) := _) cs) as [us|] eqn:F in H; [|discriminate].
          simpl in H. inversion H; subst. constructor; [apply Hc; auto|apply IHcs; auto].
        + intros H. inversion H as [|? u ? us Hu Hus]; subst. apply Hc in Hu. rewrite Hu. cbn [obind].
          apply IHcs in Hus. rewrite Hus. auto. }
    split.
    + intros H. destruct ((fix go (l : list tree) : option (list term) := _) cs) as [ts|] eqn:F in H; [|discriminate].
      simpl in H. inversion H; subst. constructor. apply G; auto.
    + intros H. inversion H; subst. apply G in H4. rewrite H4. auto.
  - split.
    + destruct (sstring s) eqn:E; simpl; intros H; inversion H; subst. constructor; auto.
    + intros H. inversion H; subst. rewrite H1. auto.
  - split; [discriminate|intros H; inversion H].
Qed.

Lemma ref_term_shape : forall E v t, ref_term v t -> forall gs vs r s v' s',
  peg E gs vs r t s (Succ v' s') -> same_shape v' v.
Proof.
  intros E. induction v as [tag x cs IH|s0|] using tree_ind'; intros t R gs vs r s v' s' P; inversion R; subst.
  - inversion P; subst.
    assert (G : forall cs ts, Forall2 ref_term cs ts ->
      Forall (fun v => forall t, ref_term v t -> forall gs vs r s v' s',
         peg E gs vs r t s (Succ v' s') -> same_shape v' v) cs ->
      forall vs cut acc done s, Forall2 same_shape acc done ->
      peg_seq E gs vs cut r ts acc s (Succ v' s') ->
      exists tg cs', v' = Node tg XNone cs' /\ Forall2 same_shape cs' (done ++ cs)).
    { clear. induction 1 as [|c t cs ts Hc Hcs IHc]; intros F vs cut acc done s A P.
      - inversion P; subst. rewrite app_nil_r. eauto.
      - inversion F as [|? ? F1 F2]; subst. inversion P; subst.
        + replace (done ++ c :: cs) with ((done ++ [c]) ++ cs) by (rewrite <- app_assoc; auto).
          eapply IHc; [exact F2| |eassumption]. apply Forall2_app; auto.
          constructor; [|constructor]. eapply F1; eauto.
        + destruct cut; discriminate. }
    match goal with H : peg_seq _ _ _ _ _ _ _ _ _, R2 : Forall2 ref_term _ _ |- _ =>
      destruct (G _ _ R2 IH _ _ _ [] _ (Forall2_nil _) H) as (tg & cs' & -> & F) end.
    constructor. auto.
  - inversion P; subst. match goal with H : token _ _ _ _ |- _ => inversion H; subst; constructor end.
Qed.

Lemma leaf_texts_node : forall t x cs, leaf_texts (Node t x cs) = flat_map leaf_texts cs.
Proof.
  intros. unfold leaf_texts. simpl. induction cs as [|c cs IH]; simpl; auto.
  rewrite map_app, IH. auto.
Qed.

Lemma same_shape_length : forall v e, same_shape v e -> length (leaf_texts v) = length (leaf_texts e).
Proof.
  induction v as [tag x cs IH|s0|] using tree_ind'; intros e S; inversion S; subst; auto.
  rewrite !leaf_texts_node. clear S.
  match goal with H : Forall2 same_shape _ _ |- _ => revert H end.
  generalize dependent cs'. induction IH; intros cs' F; inversion F; subst; simpl; auto.
  rewrite !app_length. f_equal; auto.
Qed.

Lemma Forall2_len : forall {A B} (R : A -> B -> Prop) l m, Forall2 R l m -> length l = length m.
Proof. induction 1; simpl; auto. Qed.

Lemma nodes_equal_texts : forall e v t, ref_term e t -> same_shape v e ->
  (nodes_equal v e = true <-> leaf_texts v = leaf_texts e).
Proof.
  induction e as [tag x cs IH|s0|] using tree_ind'; intros v t R S; inversion S; subst; inversion R; subst.
  - rewrite !leaf_texts_node. simpl.
    match goal with H : Forall2 same_shape _ _ |- _ => pose proof (Forall2_len _ _ _ H) as L; rename H into F end.
    match goal with H : Forall2 ref_term _ _ |- _ => rename H into FR end.
    rewrite L, Nat.eqb_refl. clear L S R. generalize dependent ts. generalize dependent cs0.
    induction IH as [|c cs Hc Hcs IHc]; intros cs0 F ts FR; inversion F; subst; inversion FR; subst; simpl.
    + split; auto.
    + rewrite andb_true_iff.
      match goal with S1 : same_shape ?a c, R1 : ref_term c ?u, F1 : Forall2 same_shape ?l cs, F2 : Forall2 ref_term cs ?us |- _ =>
        rewrite (Hc _ _ R1 S1), (IHc _ F1 _ F2); pose proof (same_shape_length _ _ S1) end.
      split.
      * intros [-> ->]; auto.
      * intros Q. apply app_inj_len in Q; tauto.
  - unfold leaf_texts. simpl. match goal with H : sstring s0 = _ |- _ => rewrite H end.
    destruct (sstring a) as [p|]; [|split; discriminate].
    rewrite beqb_eq. split; congruence.
Qed.

(** * Soundness: what the parser does, the grammar allows *)

Section Sound.
  Variable c : config.
  Hypothesis no_escape : cf_esc c = None.
  Hypothesis ids : ids_ok (cf_rnd c).
  Notation E := (cf_eng c).
  Notation rnd := (cf_rnd c).

  Definition sound_at (f : nat) (slot : parser -> parser) : Prop :=
    forall e gs rule t p sc inp k, env_ok E e gs -> comp E gs rule t p -> plain t = true ->
      cut_ok rnd k (scut sc) ->
      agrees rnd (peg E gs (svals sc) rule t inp) (scut sc) k (parse c f e (slot p) sc inp k).

  Lemma agrees_widen : forall P cut k k1 o, (k <= k1)%nat ->
    agrees rnd P cut k1 o -> agrees rnd P cut k o.
  Proof.
    intros P cut k k1 [[[v|er| |] s'] k'] H A; simpl in *; auto.
    - intuition lia.
    - destruct A as (A & [B|[(r & j & X & Y) C]]); split; try lia; auto.
      right. split; auto. exists r, j. split; auto. lia.
  Qed.

  (** The cut-point test agrees with the grammar whenever the element succeeded. *)
  Lemma is_cut_commits : forall f e gs t p0 sc inp k v s' k', env_ok E e gs -> comp E gs "" t p0 ->
    plain t = true -> parse c f e (reg p0) sc inp k = (ROk v, s', k') ->
    (is_cut e (reg p0) = true <-> commits gs t).
  Proof.
    intros f e gs t p0 sc inp k v s' k' HE HC HP HR.
    destruct (is_prule p0) eqn:Q.
    - destruct p0; try discriminate. simpl in *.
      destruct f as [|f]; [discriminate|]. cbn [parse] in HR.
      pose proof (resolve_link_body _ _ _ t0 HE) as RB.
      destruct (resolve_link e t0) as [[q e']|]; [|discriminate].
      destruct RB as (gs' & t' & B1 & B2 & B3 & B4).
      assert (is_prule q = false) as NQ.
      { destruct q; auto. destruct f as [|f]; discriminate. }
      destruct (prule_means _ _ _ _ _ _ HC HP) as (_ & M). rewrite M, commits_rule.
      rewrite (is_cut0_commits _ _ _ _ _ B3 B4 NQ). split; [eauto|].
      intros (g2 & t2 & X & Y). destruct (rule_body_fun _ _ _ _ B1 _ _ X); subst; auto.
    - assert (reg p0 = p0) as -> by (destruct p0; auto; discriminate).
      rewrite <- (is_cut0_commits _ _ _ _ _ HC HP Q).
      pose proof (term_parser_not_link _ _ _ _ _ HC). destruct p0; simpl; tauto.
  Qed.

  Definition elems (gs : grammars) (ts : list term) (ps : list parser) : Prop :=
    Forall2 (fun t p => exists p0, comp E gs "" t p0 /\ p = reg p0) ts ps.

  Lemma ctraverse_elems : forall gs ts ps,
    ctraverse (fun x => cbind (term_parser E x (wrap_of gs) "") (fun p => COk (reg p))) ts = COk ps ->
    elems gs ts ps.
  Proof.
    intros gs ts ps H. apply ctraverse_ok in H. unfold elems.
    induction H as [|t p ts ps Hp H IH]; constructor; auto.
    apply cbind_ok in Hp as (p0 & A & B). exists p0. split; auto. congruence.
  Qed.

  Lemma seq_sound : forall f e gs rule, sound_at f reg -> env_ok E e gs ->
    forall ts ps, elems gs ts ps -> forallb plain ts = true ->
    forall cut0 k0 (cut : bool) sc inp k acc, (k0 <= k)%nat -> cut_ok rnd k0 cut0 ->
      (cut = false /\ scut sc = cut0 \/ cut = true /\ exists j, (k0 <= j < k)%nat /\ scut sc = rnd j) ->
      agrees rnd (peg_seq E gs (svals sc) cut rule ts acc inp) cut0 k0
        (seq_loop c (parse c f e) (is_cut e) rule (map ident_from_term ts) ps sc inp k acc).
  Proof.
    intros f e gs rule IH HE ts ps HF. induction HF as [|t p ts ps (p0 & HC & ->) HF IHF];
      intros HP cut0 k0 cut sc inp k acc Hk H0 Hcut; cbn [map seq_loop].
    - simpl. split; auto. constructor.
    - simpl in HP. apply andb_true_iff in HP as [HP1 HP2].
      assert (CK : cut_ok rnd k (scut sc)).
      { destruct Hcut as [[_ ->]|(_ & j & J & ->)]; [eapply cut_ok_mono; eauto|right; exists j; split; auto; lia]. }
      pose proof (IH e gs ""%string t p0 sc inp k HE HC HP1 CK) as A.
      destruct (parse c f e (reg p0) sc inp k) as [[[v|er| |] inp'] k'] eqn:R; try exact I.
      + simpl in A. destruct A as [K A].
        pose proof (is_cut_commits _ _ _ _ _ _ _ _ _ _ _ HE HC HP1 R) as IC.
        cbn [hd tl]. rewrite label_ident. destruct (is_cut e (reg p0)) eqn:Q.
        * unfold replace_cut. rewrite orb_true_r. cbv beta iota zeta.
          rewrite with_val_bind. cbn [svals scut].
          eapply agrees_impl; [|apply (IHF HP2 cut0 k0 true); auto; try lia].
          -- intros o P. eapply PS_next; [exact A| |exact P]. left. split; auto. apply IC; auto.
          -- right. split; auto. exists k'. cbn [scut]. split; auto. lia.
        * rewrite with_val_bind.
          eapply agrees_impl; [|apply (IHF HP2 cut0 k0 cut); auto; try lia].
          -- intros o P. eapply PS_next; [exact A| |exact P]. right. split; auto.
             rewrite <- IC. discriminate.
          -- cbn [scut]. destruct Hcut as [X|(X & j & J & Y)]; [left; auto|].
             right. split; auto. exists j. split; auto. lia.
      + simpl in A. destruct A as [K [[M P]|[AB P]]].
        * assert (G : forall e', mine e' (scut sc) -> (is_fatal e' = true \/ e' = new_parse_error rule (scut sc)) ->
            agrees rnd (peg_seq E gs (svals sc) cut rule (t :: ts) acc inp) cut0 k0 (RErr e', inp', k') ).
          { intros e' M' F'. simpl. split; [lia|].
            pose proof (PS_fail E gs (svals sc) cut rule t ts acc inp P) as PF.
            destruct Hcut as [[-> X]|(-> & j & J & X)].
            - left. rewrite <- X. auto.
            - right. split; auto. exists (match e' with EFatal r _ => r | _ => ""%string end), j.
              split; [|lia]. destruct ids as [N _]. specialize (N j).
              destruct F' as [F'| ->].
              + destruct e'; simpl in *; try discriminate; try tauto. destruct M' as [M' _]; congruence.
              + unfold new_parse_error, cp_valid. rewrite X.
                destruct (Z.leb_spec 0 (rnd j)); [auto|lia]. }
          destruct (is_fatal er) eqn:F.
          -- apply G; auto.
          -- pose proof (G _ (new_parse_error_mine rule (scut sc)) (or_intror eq_refl)) as X. exact X.
        * assert (is_fatal er = true) as -> by (destruct AB as (r & j & -> & _); auto).
          simpl. split; [lia|]. right. split; [|apply PS_abort; auto].
          destruct AB as (r & j & -> & J). exists r, j. split; auto. lia.
  Qed.

  (** The scope a choice or repetition hands to its children. *)
  Lemma replace_cut_spec : forall sc k sc' prevcp mycp k1, cut_ok rnd k (scut sc) ->
    replace_cut c false sc k = (sc', prevcp, mycp, k1) ->
    svals sc' = svals sc /\ scut sc' = mycp /\ prevcp = scut sc /\ (k <= k1)%nat /\ cut_ok rnd k1 mycp.
  Proof.
    intros sc k sc' prevcp mycp k1 H R. unfold replace_cut in R. rewrite orb_false_r in R.
    destruct (cp_valid (scut sc)) eqn:V; inversion R; subst; clear R; simpl.
    - split; [auto|]. split; [auto|]. split; [auto|]. split; [lia|]. right. exists k. split; auto.
    - pose proof (cut_ok_valid _ _ _ ids H V) as X.
      split; [auto|]. split; [auto|]. split; [auto|]. split; [lia|]. left; auto.
  Qed.

  Lemma oneof_sound : forall f e gs rule, sound_at f reg -> env_ok E e gs ->
    forall ts ps, elems gs ts ps -> forallb plain ts = true ->
    forall i sc prevcp mycp inp far k k0, scut sc = mycp -> cut_ok rnd k mycp -> (k0 <= k)%nat ->
      agrees rnd (peg_alt E gs (svals sc) rule i ts inp) prevcp k0
        (oneof_loop (parse c f e) rule i ps sc prevcp mycp inp far k).
  Proof.
    intros f e gs rule IH HE ts ps HF. induction HF as [|t p ts ps (p0 & HC & ->) HF IHF];
      intros HP i sc prevcp mycp inp far k k0 HS HK Hk; cbn [oneof_loop].
    - simpl. split; auto. left. split; [apply new_parse_error_mine|constructor].
    - simpl in HP. apply andb_true_iff in HP as [HP1 HP2].
      assert (CK : cut_ok rnd k (scut sc)) by (rewrite HS; auto).
      pose proof (IH e gs ""%string t p0 sc inp k HE HC HP1 CK) as A.
      destruct (parse c f e (reg p0) sc inp k) as [[[v|er| |] inp'] k']; try exact I.
      + simpl in A |- *. destruct A as [K A]. split; [lia|]. apply PA_here; auto.
      + simpl in A. destruct A as [K [[M P]|[AB P]]].
        * rewrite <- HS, not_my_fatal_mine by auto. rewrite HS.
          eapply agrees_impl; [|apply (IHF HP2 (S i) sc prevcp mycp inp); auto; try lia].
          -- intros o Q. apply PA_next; auto.
          -- eapply cut_ok_mono; eauto.
        * destruct (aborts_not_mine _ _ _ _ _ ids HK AB) as [-> _].
          simpl. split; [lia|]. right. split; [|apply PA_abort; auto].
          destruct AB as (r & j & -> & J). exists r, j. split; auto. lia.
  Qed.

  Lemma room_iff : forall mx n, (Nat.eqb mx 0 || Nat.ltb n mx) = true <-> room mx n.
  Proof. intros. unfold room. rewrite orb_true_iff, Nat.eqb_eq, Nat.ltb_lt. tauto. Qed.

  Lemma quant_sound : forall f e gs rule t p0 mn mx, sound_at f reg -> env_ok E e gs ->
    comp E gs "" t p0 -> plain t = true ->
    forall fuel sc prevcp mycp inp k acc k0, scut sc = mycp -> cut_ok rnd k mycp -> (k0 <= k)%nat ->
      agrees rnd (peg_rep E gs (svals sc) rule mn mx t acc inp) prevcp k0
        (quant_loop (parse c f e) fuel rule mn mx (reg p0) sc prevcp mycp inp k acc).
  Proof.
    intros f e gs rule t p0 mn mx IH HE HC HP fuel. induction fuel as [|fuel IHf];
      intros sc prevcp mycp inp k acc k0 HS HK Hk; cbn [quant_loop];
      (destruct (Nat.eqb mx 0 || Nat.ltb (length acc) mx) eqn:RM;
       [apply room_iff in RM|
        assert (~ room mx (length acc)) as NR by (rewrite <- room_iff; congruence);
        pose proof (PR_full E gs (svals sc) rule mn mx t acc inp NR) as PF;
        destruct (Nat.leb mn (length acc)); simpl; split; auto; left; split; auto; apply new_parse_error_mine]).
    - exact I.
    - assert (CK : cut_ok rnd k (scut sc)) by (rewrite HS; auto).
      pose proof (IH e gs ""%string t p0 sc inp k HE HC HP CK) as A.
      destruct (parse c f e (reg p0) sc inp k) as [[[v|er| |] inp'] k']; try exact I.
      + simpl in A. destruct A as [K A].
        eapply agrees_impl; [|apply (IHf sc prevcp mycp inp' k' (acc ++ [v])); auto; try lia].
        * intros o Q. eapply PR_more; eauto.
        * eapply cut_ok_mono; eauto.
      + simpl in A. destruct A as [K [[M P]|[AB P]]].
        * rewrite <- HS, not_my_fatal_mine by auto.
          pose proof (PR_stop E gs (svals sc) rule mn mx t acc inp RM P) as PF.
          destruct (Nat.leb mn (length acc)); simpl; (split; [lia|]); auto.
          left; split; auto; apply new_parse_error_mine.
        * destruct (aborts_not_mine _ _ _ _ _ ids HK AB) as [-> _].
          simpl. split; [lia|]. right. split; [|apply PR_abort; auto].
          destruct AB as (r & j & -> & J). exists r, j. split; auto. lia.
  Qed.

  Lemma plain_delim_seq : forall t sep a cs ce, plain (TDelim t sep a cs ce) = true ->
    plain (delim_seq t sep cs ce) = true.
  Proof.
    intros t sep a cs ce H. simpl in H. apply andb_true_iff in H as [H1 H2].
    unfold delim_seq, Opt, Any. destruct cs, ce; simpl; rewrite H1, H2; auto.
  Qed.

  Lemma ref_term_plain : forall v t, ref_term v t -> plain t = true.
  Proof.
    induction v as [tag x cs IH|s0|] using tree_ind'; intros t R; inversion R; subst; auto.
    simpl. match goal with H : Forall2 _ _ _ |- _ => revert H end. clear R.
    revert ts. induction IH; intros ts F; inversion F; subst; simpl; auto.
    apply andb_true_iff. split; eauto.
  Qed.

  Lemma sound_step : forall f, sound_at f (fun p => p) -> sound_at f reg -> sound_at (S f) (fun p => p).
  Proof.
    intros f IHA IHB e gs rule t. revert rule. unfold comp.
    induction t using term_ind'; intros rule p0 sc inp k HE HC HP HK; pose proof HC as HC0; simpl in HC.
    - (* TRule *) inversion HC; subst. exact I.
    - (* TS *) apply cbind_ok in HC as (re & Hre & HC). apply cbind_ok in HC as (re' & Hm & HC).
      inversion HC; subst; clear HC. unfold must_compile in Hm.
      destruct (re_valid E (anchor ++ re)); [|discriminate].
      assert (re' = anchor ++ re) by congruence. subst re'. clear Hm.
      apply apply_wrap_spec in Hre. cbn [parse]. unfold with_escape. rewrite no_escape.
      pose proof (eat_token_spec E re inp) as T.
      destruct (eat_token E (anchor ++ re) inp) as [| |leaf rest]; [exact I| |]; simpl; (split; [auto|]).
      + left. split; [apply new_parse_error_mine|eapply P_lit; eauto].
      + eapply P_lit; eauto.
    - (* TRE *) apply cbind_ok in HC as (re & Hre & HC). apply cbind_ok in HC as (re' & Hm & HC).
      inversion HC; subst; clear HC. unfold must_compile in Hm.
      destruct (re_valid E (anchor ++ re)); [|discriminate].
      assert (re' = anchor ++ re) by congruence. subst re'. clear Hm.
      apply apply_wrap_spec in Hre. cbn [parse]. unfold with_escape. rewrite no_escape.
      pose proof (eat_token_spec E re inp) as T.
      destruct (eat_token E (anchor ++ re) inp) as [| |leaf rest]; [exact I| |]; simpl; (split; [auto|]).
      + left. split; [apply new_parse_error_mine|eapply P_re; eauto].
      + eapply P_re; eauto.
    - (* TREF *) inversion HC; subst; clear HC. cbn [parse]. unfold with_escape. rewrite no_escape.
      assert (G : forall t check, plain t = true -> forall P : outcome -> Prop,
        (forall v s', peg E [] (svals sc) i t inp (Succ v s') -> if check v : bool then P (Succ v s') else P Fail) ->
        (forall o, o = Fail \/ o = Abort -> peg E [] (svals sc) i t inp o -> P o) ->
        agrees rnd P (scut sc) k
          match term_parser E t None i with
          | COk q => match parse c f [] q sc inp k with
                     | (ROk v, inp', k') => if check v then (ROk v, inp', k') else (RErr (EParse i), inp', k')
                     | r => r
                     end
          | _ => (RPanic, inp, k)
          end).
      { intros t check Pt P P1 P2. destruct (term_parser E t None i) as [q| |] eqn:TP; try exact I.
        pose proof (IHA [] [] i t q sc inp k (eo_nil _) TP Pt HK) as A.
        destruct (parse c f [] q sc inp k) as [[[v|er| |] inp'] k']; try exact I; simpl in A.
        - destruct A as [K A]. apply P1 in A. destruct (check v); simpl; auto.
        - simpl. destruct A as [K [[M X]|[AB X]]]; split; auto. }
      destruct (lookup i (svals sc)) as [v|] eqn:L.
      + destruct (term_from_ref_val v) as [t|] eqn:T; [|exact I].
        apply term_from_ref_val_spec in T. apply G; [eapply ref_term_plain; eauto| |].
        * intros v' s' X. pose proof (ref_term_shape _ _ _ T _ _ _ _ _ _ X) as SS.
          pose proof (nodes_equal_texts _ _ _ T SS) as NE.
          destruct (nodes_equal v' v).
          -- eapply P_ref; eauto. tauto.
          -- eapply P_ref_differs; eauto. intros Q. apply NE in Q. discriminate.
        * intros o O X. eapply P_ref_no; eauto.
      + destruct d as [d|].
        * apply (G (TS d) (fun _ => true)); auto.
          -- intros. apply P_ref_default; auto.
          -- intros. apply P_ref_default; auto.
        * simpl. split; auto. left. split; auto. apply P_ref_unbound; auto.
    - (* TExtRef *) discriminate.
    - (* TSeq *) apply cbind_ok in HC as (ps & Hps & HC). inversion HC; subst; clear HC.
      apply ctraverse_elems in Hps. cbn [parse]. unfold with_escape. rewrite no_escape.
      eapply agrees_impl; [|apply (seq_sound f e gs rule IHB HE ts ps Hps HP (scut sc) k false); auto].
      intros o P. apply P_seq; auto.
    - (* TOneof *) apply cbind_ok in HC as (ps & Hps & HC). inversion HC; subst; clear HC.
      apply ctraverse_elems in Hps. cbn [parse]. unfold with_escape. rewrite no_escape.
      destruct (replace_cut c false sc k) as [[[sc' prevcp] mycp] k1] eqn:RC.
      destruct (replace_cut_spec _ _ _ _ _ _ HK RC) as (V & C1 & C2 & K1 & K2). subst prevcp.
      eapply agrees_impl; [|apply (oneof_sound f e gs rule IHB HE ts ps Hps HP 0 sc' (scut sc) mycp inp inp k1); auto].
      intros o P. apply P_oneof. rewrite <- V. auto.
    - (* TStack *) discriminate.
    - (* TDelim *) destruct (delim_comp _ _ _ _ _ _ _ _ _ HC0) as (child & -> & HD).
      cbn [parse]. unfold with_escape. rewrite no_escape.
      pose proof (IHA e gs rule _ child sc inp k HE HD (plain_delim_seq _ _ _ _ _ HP) HK) as A.
      destruct (parse c f e child sc inp k) as [[[v|er| |] inp'] k']; try exact I; simpl in A.
      + destruct A as [K A]. destruct (delim_node rule a cs ce v) as [w|] eqn:D; [|exact I].
        simpl. split; auto. apply delim_node_spec in D as (items & D1 & D2). eapply P_delim; eauto.
      + simpl. destruct A as [K [[M X]|[AB X]]]; split; auto.
        * left. split; auto. apply P_delim_no; auto.
        * right. split; auto. apply P_delim_no; auto.
    - (* TLookAhead *) apply cbind_ok in HC as (q & Hq & HC). inversion HC; subst; clear HC.
      cbn [parse]. unfold with_escape. rewrite no_escape.
      pose proof (IHB e gs ""%string t q sc inp k HE Hq HP HK) as A.
      destruct (parse c f e (reg q) sc inp k) as [[[v|er| |] inp'] k']; try exact I; simpl in A |- *.
      + destruct A as [K A]. split; auto. eapply P_look; eauto.
      + destruct A as [K [[M X]|[AB X]]]; split; auto.
        * left. split; auto. apply P_look_no; auto.
        * right. split; auto. apply P_look_no; auto.
    - (* TQuant *) apply cbind_ok in HC as (q & Hq & HC). inversion HC; subst; clear HC.
      cbn [parse]. unfold with_escape. rewrite no_escape.
      destruct (replace_cut c false sc k) as [[[sc' prevcp] mycp] k1] eqn:RC.
      destruct (replace_cut_spec _ _ _ _ _ _ HK RC) as (V & C1 & C2 & K1 & K2). subst prevcp.
      eapply agrees_impl; [|apply (quant_sound f e gs rule t q mn mx IHB HE Hq HP f sc' (scut sc) mycp inp k1 []); auto].
      intros o P. apply P_quant. rewrite <- V. auto.
    - (* TNamed *) eapply agrees_impl; [|apply (IHt n p0 sc inp k HE HC HP HK)].
      intros o P. apply P_named; auto.
    - (* TScoped *) apply cbind_ok in HC as (rules & Hr & HC). apply cbind_ok in HC as (q & Hq & HC).
      destruct (plain_scoped _ _ HP) as (HP1 & HP2 & HN).
      change (compile_rules (rule_fns E (wrap_of (g :: gs)) g) = COk rules) in Hr.
      change (term_parser E t (wrap_of (g :: gs)) rule = COk q) in Hq.
      assert (HE' : env_ok E (rules :: e) (g :: gs)) by (constructor; auto).
      assert (PS : forall r' t' q', comp E (g :: gs) r' t' q' -> plain t' = true ->
        (forall o, peg E (g :: gs) (svals sc) r' t' inp o -> peg E gs (svals sc) rule (TScoped t g) inp o) ->
        agrees rnd (peg E gs (svals sc) rule (TScoped t g) inp) (scut sc) k
          (parse c (S f) e (PScoped rules q') sc inp k)).
      { intros r' t' q' C' P' I'. cbn [parse]. eapply agrees_impl; [exact I'|]. apply IHA; auto. }
      inversion HC; subst p0; clear HC. unfold scoped_result. destruct (is_prule q) eqn:Q.
      + destruct q; try discriminate.
        pose proof (compile_rules_lookup _ _ _ _ t0 Hr) as L.
        destruct (lookup t0 rules) as [q|] eqn:Lq; [|exact I].
        pose proof (nested_not_prule _ _ _ _ _ _ Hr HN Lq) as NP.
        destruct L as (u & u' & L1 & L2 & L3).
        assert (G : agrees rnd (peg E gs (svals sc) rule (TScoped t g) inp) (scut sc) k
          (parse c (S f) e (PScoped rules q) sc inp k)).
        { apply (PS t0 u' q L3).
          - eapply (alias_body_in (fun z => plain z = true)); eauto.
          - intros o P. apply P_scoped. eapply (proj1 (prule_means _ _ _ _ _ _ Hq HP1)).
            eapply P_rule; [|exact P]. eapply rb_here; eauto. }
        destruct q; try exact G. discriminate.
      + assert (G : agrees rnd (peg E gs (svals sc) rule (TScoped t g) inp) (scut sc) k
          (parse c (S f) e (PScoped rules q) sc inp k)).
        { apply (PS rule t q Hq HP1). intros o P. apply P_scoped; auto. }
        destruct q; try exact G. discriminate.
    - (* TCut *) apply cbind_ok in HC as (q & Hq & HC). inversion HC; subst; clear HC.
      cbn [parse]. eapply agrees_impl; [|apply (IHA e gs rule t q sc inp k HE Hq HP HK)].
      intros o P. apply P_cut; auto.
  Qed.

  Lemma sound_reg : forall f, sound_at (S f) (fun p => p) -> sound_at f (fun p => p) -> sound_at (S f) reg.
  Proof.
    intros f IHS IH e gs rule t p sc inp k HE HC HP HK.
    destruct (is_prule p) eqn:Q.
    - destruct p; try discriminate. cbn [reg parse].
      pose proof (resolve_link_body _ _ _ t0 HE) as RB.
      destruct (resolve_link e t0) as [[q e']|]; [|exact I].
      destruct RB as (gs' & t' & B1 & B2 & B3 & B4).
      eapply agrees_impl; [|apply (IH e' gs' t0 t' q sc inp k B2 B3 B4 HK)].
      intros o P. apply (proj1 (prule_means _ _ _ _ _ _ HC HP)). eapply P_rule; eauto.
    - assert (reg p = p) as -> by (destruct p; auto; discriminate).
      apply (IHS e gs rule t p sc inp k); auto.
  Qed.

  Theorem parse_sound_at : forall f, sound_at f (fun p => p) /\ sound_at f reg.
  Proof.
    induction f as [|f [A B]].
    - split; intros e gs rule t p sc inp k _ _ _ _; exact I.
    - pose proof (sound_step f A B) as S. split; auto. apply sound_reg; auto.
  Qed.
End Sound.
