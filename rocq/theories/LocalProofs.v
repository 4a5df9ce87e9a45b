(** Proofs about single constructs. *)
From Verif Require Import Base Scanner ScannerSpec ScannerProofs Syntax Engine Resolve Compile Parse PegSpec
  DerivSpec FlowSpec LocalSpec CompileProofs FuelProofs PegProofs PegComplete DerivProofs FlowProofs.
Local Open Scope Z_scope.

Lemma no_esc : forall c sc inp k cont, cf_esc c = None -> with_escape c sc inp k cont = cont tt.
Proof. intros. unfold with_escape. rewrite H. auto. Qed.

(** * Repetition *)

Lemma quant_loop_inv : forall run rule mn mx p sc pc mc, forall fuel inp k acc v s' k',
  (mx = O \/ (length acc <= mx)%nat) ->
  quant_loop run fuel rule mn mx p sc pc mc inp k acc = (ROk v, s', k') ->
  exists cs k1, v = Node (tag_or rule quantTag) XNone (acc ++ cs) /\ runs (run p sc) inp k cs s' k1 /\
    (mn <= length (acc ++ cs))%nat /\ (mx = O \/ (length (acc ++ cs) <= mx)%nat) /\
    ((mx <> O /\ length (acc ++ cs) = mx /\ k' = k1) \/
     (exists e s2, run p sc s' k1 = (RErr e, s2, k') /\ not_my_fatal e mc = false)).
Proof.
  intros run rule mn mx p sc pc mc.
  assert (FIN : forall (acc : list tree) (inp : scanner) (k k' : nat) v s', 
     (if Nat.leb mn (length acc) then (ROk (Node (rule_or_alt rule quantTag) XNone acc), inp, k)
        else (RErr (new_parse_error rule pc), inp, k)) = (ROk v, s', k') ->
     v = Node (tag_or rule quantTag) XNone acc /\ s' = inp /\ k' = k /\ (mn <= length acc)%nat).
  { intros. destruct (Nat.leb_spec mn (length acc)); inversion H; subst. auto. }
  induction fuel as [|f IH]; intros inp k acc v s' k' B H; simpl in H.
  - destruct (Nat.eqb_spec mx 0); simpl in H; [discriminate|].
    destruct (Nat.ltb_spec (length acc) mx); [discriminate|].
    apply FIN in H as (-> & -> & -> & L). exists [], k. rewrite app_nil_r.
    split; auto. split; [constructor|]. split; auto. split; auto. left. lia.
  - destruct (Nat.eqb mx 0 || Nat.ltb (length acc) mx) eqn:RM.
    + destruct (run p sc inp k) as [[[w|e| |] s1] k1] eqn:Q; try discriminate.
      * apply IH in H.
        -- destruct H as (cs & k2 & -> & R & B1 & B2 & B3). rewrite <- app_assoc in *. exists (w :: cs), k2.
           split; auto. split; [econstructor; eauto|]. auto.
        -- rewrite app_length. simpl. apply orb_true_iff in RM as [RM|RM].
           ++ apply Nat.eqb_eq in RM. auto.
           ++ apply Nat.ltb_lt in RM. lia.
      * destruct (not_my_fatal e mc) eqn:NM; [discriminate|].
        apply FIN in H as (-> & -> & -> & L). exists [], k. rewrite app_nil_r.
        split; auto. split; [constructor|]. split; auto. split; auto. right. eauto.
    + apply orb_false_iff in RM as [R1 R2]. apply Nat.eqb_neq in R1. apply Nat.ltb_ge in R2.
      apply FIN in H as (-> & -> & -> & L). exists [], k. rewrite app_nil_r.
      split; auto. split; [constructor|]. split; auto. split; auto. left. lia.
Qed.

Lemma quant_bounds : forall c f e rule mn mx q sc s k v s' k', cf_esc c = None ->
  parse c (S f) e (PQuant rule mn mx q) sc s k = (ROk v, s', k') ->
  exists cs sc' k0 k1, v = Node (tag_or rule quantTag) XNone cs /\ svals sc' = svals sc /\
    runs (parse c f e q sc') s k0 cs s' k1 /\
    (mn <= length cs)%nat /\ (mx = O \/ (length cs <= mx)%nat) /\
    ((mx <> O /\ length cs = mx) \/ exists er s2 k2, parse c f e q sc' s' k1 = (RErr er, s2, k2)).
Proof.
  intros c f e rule mn mx q sc s k v s' k' NE H. cbn [parse] in H. rewrite no_esc in H by auto.
  destruct (replace_cut c false sc k) as [[[sc' pc] mc] k0] eqn:RC.
  apply quant_loop_inv in H; [|simpl; lia]. destruct H as (cs & k1 & -> & R & B1 & B2 & B3). simpl in *.
  exists cs, sc', k0, k1. split; auto.
  split. { unfold replace_cut in RC. destruct (_ || _); inversion RC; auto. }
  split; auto. split; auto. split; auto. destruct B3 as [[? [? _]]|(er & s2 & ? & _)]; [left; auto|right; eauto].
Qed.

(** When it fails without a fatal error from the body, the body matched too few times. *)
Lemma quant_loop_err : forall run rule mn mx p sc pc mc, forall fuel inp k acc er s' k',
  (mx = O \/ (length acc <= mx)%nat) ->
  quant_loop run fuel rule mn mx p sc pc mc inp k acc = (RErr er, s', k') ->
  exists cs s1 k1, runs (run p sc) inp k cs s1 k1 /\ s' = s1 /\
    ((exists e s2, run p sc s1 k1 = (RErr e, s2, k') /\ (is_fatal e = true \/ (length (acc ++ cs) < mn)%nat)) \/
     (mx <> O /\ length (acc ++ cs) = mx /\ (mx < mn)%nat)).
Proof.
  intros run rule mn mx p sc pc mc.
  assert (FIN : forall (acc : list tree) (inp : scanner) (k k' : nat) er s', 
     (if Nat.leb mn (length acc) then (ROk (Node (rule_or_alt rule quantTag) XNone acc), inp, k)
        else (RErr (new_parse_error rule pc), inp, k)) = (RErr er, s', k') ->
     s' = inp /\ k' = k /\ (length acc < mn)%nat).
  { intros. destruct (Nat.leb_spec mn (length acc)); inversion H; subst. auto. }
  induction fuel as [|f IH]; intros inp k acc er s' k' B H; simpl in H.
  - destruct (Nat.eqb_spec mx 0); simpl in H; [discriminate|].
    destruct (Nat.ltb_spec (length acc) mx); [discriminate|].
    apply FIN in H as (-> & -> & L). exists [], inp, k. rewrite app_nil_r.
    split; [constructor|]. split; auto. right. lia.
  - destruct (Nat.eqb mx 0 || Nat.ltb (length acc) mx) eqn:RM.
    + destruct (run p sc inp k) as [[[w|e| |] s1] k1] eqn:Q; try discriminate.
      * apply IH in H.
        -- destruct H as (cs & s2 & k2 & R & -> & X). rewrite <- app_assoc in *. exists (w :: cs), s2, k2.
           split; [econstructor; eauto|]. split; auto.
        -- rewrite app_length. simpl. apply orb_true_iff in RM as [RM|RM].
           ++ apply Nat.eqb_eq in RM. auto.
           ++ apply Nat.ltb_lt in RM. lia.
      * exists [], inp, k. rewrite app_nil_r. split; [constructor|].
        destruct (not_my_fatal e mc) eqn:NM.
        -- inversion H; subst. split; auto. left. exists er, s1. split; auto. left.
           destruct er; simpl in NM |- *; auto; discriminate.
        -- apply FIN in H as (-> & -> & L). split; auto. left. exists e, s1. auto.
    + apply orb_false_iff in RM as [R1 R2]. apply Nat.eqb_neq in R1. apply Nat.ltb_ge in R2.
      apply FIN in H as (-> & -> & L). exists [], inp, k. rewrite app_nil_r.
      split; [constructor|]. split; auto. right. lia.
Qed.

Lemma quant_fails : forall c f e rule mn mx q sc s k er s' k', cf_esc c = None ->
  parse c (S f) e (PQuant rule mn mx q) sc s k = (RErr er, s', k') ->
  exists cs sc' k0 k1, svals sc' = svals sc /\ runs (parse c f e q sc') s k0 cs s' k1 /\
    ((exists e' s2, parse c f e q sc' s' k1 = (RErr e', s2, k') /\ (is_fatal e' = true \/ (length cs < mn)%nat)) \/
     (mx <> O /\ length cs = mx /\ (mx < mn)%nat)).
Proof.
  intros c f e rule mn mx q sc s k er s' k' NE H. cbn [parse] in H. rewrite no_esc in H by auto.
  destruct (replace_cut c false sc k) as [[[sc' pc] mc] k0] eqn:RC.
  apply quant_loop_err in H; [|simpl; lia]. destruct H as (cs & s1 & k1 & R & -> & X). simpl in *.
  exists cs, sc', k0, k1.
  split. { unfold replace_cut in RC. destruct (_ || _); inversion RC; auto. }
  auto.
Qed.

(** * Look-ahead *)

Lemma look_spec : forall c f e rule q sc s k, cf_esc c = None ->
  snd (fst (parse c (S f) e (PLook rule q) sc s k)) = s /\
  (forall v, (exists s1 k1, parse c f e q sc s k = (ROk v, s1, k1)) <->
     (exists k1, parse c (S f) e (PLook rule q) sc s k = (ROk (Node (tag_or rule lookaheadTag) XNone [v]), s, k1))) /\
  (forall er, (exists s1 k1, parse c f e q sc s k = (RErr er, s1, k1)) <->
     (exists k1, parse c (S f) e (PLook rule q) sc s k = (RErr er, s, k1))).
Proof.
  intros c f e rule q sc s k NE. cbn [parse]. rewrite no_esc by auto.
  destruct (parse c f e q sc s k) as [[[w|x| |] s1] k1]; simpl; (split; [auto|]); split; intros;
    (split; [intros (a & b & Q)|intros (a & Q)]; inversion Q; subst; eauto).
Qed.

(** * Delimited lists *)

Lemma delim_parse : forall c f e rule a cs ce child sc s k v s' k', cf_esc c = None ->
  parse c (S f) e (PDelim rule a cs ce child) sc s k = (ROk v, s', k') ->
  exists o items, parse c f e child sc s k = (ROk o, s', k') /\ delim_items cs ce o items /\ delim_result rule a items v.
Proof.
  intros c f e rule a cs ce child sc s k v s' k' NE H. cbn [parse] in H. rewrite no_esc in H by auto.
  destruct (parse c f e child sc s k) as [[[w|x| |] s1] k1]; try discriminate.
  destruct (delim_node rule a cs ce w) as [t|] eqn:D; inversion H; subst.
  apply delim_node_spec in D as (items & D1 & D2). eauto.
Qed.

Lemma many_alternating : forall E gs vs sep t s cs s', derives_many E gs vs (TSeq [sep; t]) s cs s' ->
  forall l, pairs_flat cs l -> alternating E gs t sep s l s'.
Proof.
  intros E gs vs sep t s cs s' H. remember (TSeq [sep; t]) as u.
  induction H as [gs vs u s|gs vs u s v s1 cs s' D M IH]; intros l PF; subst; inversion PF as [|p x y ps l' P PF']; subst.
  - constructor.
  - apply derives_seq_inv in D as (l & -> & A).
    apply derives_all_cons in A as (a & s2 & l1 & -> & DA & A).
    apply derives_all_cons in A as (b & s3 & l2 & -> & DB & A).
    apply derives_all_nil in A as [-> ->].
    destruct P as (tg & ex & rest & Q). inversion Q; subst. econstructor; eauto.
Qed.

Lemma opt_edge : forall E gs vs sep s v s' lead o, derives E gs vs "" (Opt sep) s v s' -> opt_sep (Some v) o lead ->
  edge E gs sep true lead s o s'.
Proof.
  intros E gs vs sep s v s' lead o D OS. apply derives_quant_inv in D as (l & -> & M & _ & B). simpl in OS.
  inversion M as [|? ? ? ? x s1 cs ? DX M']; subst.
  - simpl in OS. subst. constructor.
  - destruct cs as [|y cs].
    + inversion M'; subst. destruct lead; subst;
        [exact (edge_sep E gs sep true true s vs x s' eq_refl DX)|exact (edge_sep E gs sep true false s vs x s' eq_refl DX)].
    + simpl in B. lia.
Qed.

Lemma delim_listing : forall E gs vs r t sep a cs ce s v s', derives E gs vs r (TDelim t sep a cs ce) s v s' ->
  exists items, listing E gs t sep cs ce s items s' /\ delim_result r a items v.
Proof.
  intros E gs vs r t sep a cs ce s v s' D. inversion D; subst.
  exists items. split; auto. clear D.
  match goal with A : derives _ _ _ _ (delim_seq _ _ _ _) _ _ _, B : delim_items _ _ _ _ |- _ => rename A into DS, B into DI end.
  unfold delim_seq in DS. apply derives_seq_inv in DS as (l & -> & DS).
  destruct DI as (tag & ex & cs1 & core & cs2 & lead & trail & first & more & pairs & Q & L1 & OL & OT & NT & C & PF & ->).
  inversion Q; subst tag ex l. clear Q.
  destruct C as (t1 & x1 & t2 & x2 & r' & CQ).
  assert (CORE : forall vs s v s', derives E gs vs ""%string (TSeq [t; Any (TSeq [sep; t])]) s v s' ->
            v = Node t1 x1 (first :: Node t2 x2 more :: r') ->
            exists vs' s1, derives E gs vs' ""%string t s first s1 /\ alternating E gs t sep s1 pairs s').
  { intros vs0 s0 v0 s0' D0 Q. apply derives_seq_inv in D0 as (l & -> & D0).
    apply derives_all_cons in D0 as (x & s2 & l1 & -> & DA & A).
    apply derives_all_cons in A as (b & s3 & l2 & -> & DB & A).
    apply derives_all_nil in A as [-> ->]. inversion Q; subst.
    apply derives_quant_inv in DB as (l & QB & DM & _). inversion QB; subst.
    exists vs0, s2. split; auto. eapply many_alternating; eauto. }
  assert (TRAIL : forall vs s s', derives_all E gs vs (if ce then [Opt sep] else []) s cs2 s' -> edge E gs sep ce false s trail s').
  { intros vs0 s0 s0' D0. destruct ce.
    - apply derives_all_cons in D0 as (v3 & s3 & l3 & Q & D3 & D0). apply derives_all_nil in D0 as [-> ->].
      rewrite Q in OT. eapply opt_edge; eauto.
    - apply derives_all_nil in D0 as [-> ->]. simpl in OT. subst. constructor. }
  destruct cs; simpl in DS, L1.
  - destruct cs1 as [|v1 [|? ?]]; try discriminate.
    apply derives_all_cons in DS as (v1' & s1 & l1 & Q & D1 & DS). simpl in Q. inversion Q; subst v1' l1. clear Q.
    apply derives_all_cons in DS as (v2' & s2 & l2 & Q & D2 & DS). inversion Q; subst v2' l2. clear Q.
    destruct (CORE _ _ _ _ D2 CQ) as (vs' & s3 & DF & AL).
    exists s1, s3, s2, lead, vs', first, pairs, trail. split; auto. split; [eapply opt_edge; eauto|]. eauto.
  - destruct cs1; try discriminate. simpl in OL. subst lead. simpl in *.
    apply derives_all_cons in DS as (v2' & s2 & l2 & Q & D2 & DS). inversion Q; subst v2' l2. clear Q.
    destruct (CORE _ _ _ _ D2 CQ) as (vs' & s3 & DF & AL).
    exists s, s3, s2, [], vs', first, pairs, trail. split; auto. split; [constructor|]. eauto.
Qed.

(** * Literals *)

Lemma literal_eat : forall E x s t, engine_ok E -> re_lit_ok E x = true -> in_range s -> shows s t ->
  (forall r, t = x ++ r -> exists l s', eat_token E (anchor ++ group (quote_meta x)) s = TokOk l s' /\
     shows l x /\ shows s' r /\ forward s s' /\ l = slice s 0 (blen x) /\ s' = skip s (blen x)) /\
  ((~ exists r, t = x ++ r) -> eat_token E (anchor ++ group (quote_meta x)) s = TokNo).
Proof.
  intros E x s t OK LO (o & i & n & W) S. unfold eat_token, eat_regexp.
  assert (SS : sslice s = Some t).
  { destruct W as (W1 & _). unfold shows, sstring in S. rewrite W1 in S. auto. }
  rewrite SS, (ok_lit E OK x t LO). split.
  - intros r ->. assert (HP : has_prefix x (x ++ r) = true) by (apply has_prefix_iff; eauto).
    rewrite HP. simpl. exists (slice s 0 (blen x)), (skip s (blen x)). split; auto.
    pose proof (window_length _ _ _ _ _ W SS) as LN. rewrite app_length in LN.
    pose proof (eat_splits s o i n (length x) W ltac:(lia)) as X. unfold eat in X.
    destruct X as (X1 & X2 & te & tr & X3 & X4 & X5 & X6).
    unfold shows in *. rewrite X5 in S. inversion S as [Q]. apply app_inj_len in Q as [-> ->]; auto.
    split; [|split; [exact X4|split; [|auto]]].
    + unfold slice. rewrite Z.add_0_r, Z.sub_0_r. exact X3.
    + exists o, i, n, (length x). split; auto. split; [lia|]. exact X2.
  - intros N. assert (HP : has_prefix x t = false).
    { destruct (has_prefix x t) eqn:H; auto. apply has_prefix_iff in H. contradiction. }
    rewrite HP. auto.
Qed.

Lemma literal_parse : forall c f e rule x sc s k t, cf_esc c = None -> engine_ok (cf_eng c) ->
  re_lit_ok (cf_eng c) x = true -> in_range s -> shows s t ->
  exists p, term_parser (cf_eng c) (TS x) None rule = COk p /\
  (forall r, t = x ++ r -> exists l s', parse c (S f) e p sc s k = (ROk (Leaf l), s', k) /\
     shows l x /\ shows s' r /\ forward s s' /\ offset l = offset s) /\
  ((~ exists r, t = x ++ r) -> exists er, parse c (S f) e p sc s k = (RErr er, s, k) /\
     (er = EParse rule \/ exists cp, er = EFatal rule cp)).
Proof.
  intros c f e rule x sc s k t NE OK LO R S.
  exists (PS rule x (anchor ++ group (quote_meta x))). split.
  - cbn [term_parser apply_wrap cbind must_compile]. unfold must_compile. rewrite (ok_lit_valid _ OK x LO). auto.
  - cbn [parse]. rewrite no_esc by auto. destruct (literal_eat _ _ _ _ OK LO R S) as [A B]. split.
    + intros r Q. destruct (A r Q) as (l & s' & -> & S1 & S2 & F & -> & _). exists (slice s 0 (blen x)), s'. split; auto.
      split; auto. split; auto. split; auto. unfold offset. simpl. lia.
    + intros N. rewrite (B N). eexists. split; [reflexivity|]. unfold new_parse_error.
      destruct (cp_valid (scut sc)); eauto.
Qed.

(** * Regular expressions *)

Lemma re_eat : forall E x s t, engine_ok E -> re_valid E x = true -> re_valid E (anchor ++ group x) = true ->
  sslice s = Some t ->
  (re_find E (anchor ++ group x) t = None -> eat_token E (anchor ++ group x) s = TokNo) /\
  (forall locs, re_find E (anchor ++ group x) t = Some locs ->
     exists b gs, locs = (0, b) :: (0, b) :: gs /\ 0 <= b <= blen t /\ length gs = re_groups E x /\
       match gs with
       | [] => eat_token E (anchor ++ group x) s = TokOk (slice s 0 b) (skip s b)
       | [g] => eat_token E (anchor ++ group x) s = TokOk (slice s (fst g) (snd g)) (skip s b) /\ loc_ok 0 b g
       | _ => eat_token E (anchor ++ group x) s = TokPanic
       end).
Proof.
  intros E x s t OK V1 V2 SS. unfold eat_token, eat_regexp. rewrite SS. split.
  - intros ->. auto.
  - intros locs F. rewrite F.
    destruct (ok_shape E OK _ _ _ F) as (a & b & gs & -> & B1 & B2 & B3 & LN & LO).
    rewrite (ok_group_count E OK _ V1 V2) in LN. destruct gs as [|g gs]; [discriminate|].
    destruct (ok_group E OK _ _ _ _ _ _ V1 V2 F) as [-> ->]. exists b, gs. split; auto. split; [lia|].
    split; [simpl in LN; lia|]. simpl.
    destruct gs as [|g1 [|g2 gs]]; simpl; auto. split; auto. inversion LO as [|? ? ? LO2]; subst. inversion LO2; auto.
Qed.

Lemma re_parse : forall c f e rule x sc s k t, cf_esc c = None -> engine_ok (cf_eng c) ->
  re_valid (cf_eng c) x = true -> re_valid (cf_eng c) (anchor ++ group x) = true -> in_range s -> shows s t ->
  exists p, term_parser (cf_eng c) (TRE x) None rule = COk p /\
  (re_find (cf_eng c) (anchor ++ group x) t = None -> exists er, parse c (S f) e p sc s k = (RErr er, s, k)) /\
  (forall locs, re_find (cf_eng c) (anchor ++ group x) t = Some locs ->
     exists b gs, locs = (0, b) :: (0, b) :: gs /\ 0 <= b <= blen t /\ length gs = re_groups (cf_eng c) x /\
       match gs with
       | [] => parse c (S f) e p sc s k = (ROk (Leaf (slice s 0 b)), skip s b, k)
       | [g] => parse c (S f) e p sc s k = (ROk (Leaf (slice s (fst g) (snd g))), skip s b, k) /\ loc_ok 0 b g
       | _ => parse c (S f) e p sc s k = (RPanic, s, k)
       end).
Proof.
  intros c f e rule x sc s k t NE OK V1 V2 (o & i & n & W) S.
  exists (PRE rule x (anchor ++ group x)). split.
  - cbn [term_parser apply_wrap cbind must_compile]. unfold must_compile. rewrite V2. auto.
  - assert (SS : sslice s = Some t).
    { destruct W as (W1 & _). unfold shows, sstring in S. rewrite W1 in S. auto. }
    cbn [parse]. rewrite no_esc by auto. destruct (re_eat _ _ _ _ OK V1 V2 SS) as [A B]. split.
    + intros N. rewrite (A N). eauto.
    + intros locs F. destruct (B locs F) as (b & gs & -> & B1 & B2 & M). exists b, gs. split; auto. split; auto. split; auto.
      destruct gs as [|g1 [|g2 gs]]; [rewrite M; auto| |rewrite M; auto]. destruct M as [M L]. rewrite M. auto.
Qed.

(** * Back references *)

Lemma bound_ref : forall v x, bound_value v x -> exists t, ref_term v t.
Proof.
  induction v as [tag ex cs IH|s0|] using tree_ind'; intros x B; inversion B; subst.
  - match goal with H : Forall2 bound_value _ _ |- _ => rename H into F end. clear B.
    assert (exists ts, Forall2 ref_term cs ts) as [ts T].
    { revert xs F. induction IH as [|c cs Hc Hcs IHc]; intros xs F; inversion F; subst; [eauto|].
      match goal with H : bound_value c _ |- _ => apply Hc in H as [t T] end.
      match goal with H : Forall2 bound_value cs _ |- _ => apply IHc in H as [ts Ts] end. eauto. }
    exists (TSeq ts). constructor; auto.
  - exists (TS x). constructor; auto.
Qed.

Section BackRef.
  Variable c : config.
  Hypothesis no_escape : cf_esc c = None.
  Notation E := (cf_eng c).
  Hypothesis OK : engine_ok E.

  (** Running the literal term of a bound value. *)
  Definition repeats (v : tree) (x : bytes) (p : parser) (f0 : nat) : Prop :=
    forall f e sc s k txt, (f0 <= f)%nat -> in_range s -> shows s txt ->
      (forall r, txt = x ++ r -> exists v' s', parse c f e p sc s k = (ROk v', s', k) /\
         same_shape v' v /\ leaf_texts v' = leaf_texts v /\ shows s' r /\ forward s s') /\
      ((~ exists r, txt = x ++ r) -> exists er s', parse c f e p sc s k = (RErr er, s', k)).

  Lemma ref_repeats : forall v t x, ref_term v t -> bound_value v x -> literal_leaves E v -> forall rule,
    exists p f0, term_parser E t None rule = COk p /\ reg p = p /\ is_cut0 p = false /\ (forall e, is_cut e p = is_cut0 p) /\
      repeats v x p f0.
  Proof.
    induction v as [tag ex cs IH|s0|] using tree_ind'; intros t x R B LL rule; inversion R; subst; inversion B; subst.
    - match goal with H : Forall2 bound_value _ _ |- _ => rename H into FB end.
      match goal with H : Forall2 ref_term _ _ |- _ => rename H into FR end.
      assert (G : exists ps f0, ctraverse (fun x => cbind (term_parser E x None "") (fun p => COk (reg p))) ts = COk ps /\
        (forall e p, In p ps -> is_cut e p = false) /\
        forall f e sc s k txt ids acc, (f0 <= f)%nat -> in_range s -> shows s txt ->
        (forall r, txt = concat xs ++ r -> exists vs s',
           seq_loop c (parse c f e) (is_cut e) rule ids ps sc s k acc = (ROk (Node (rule_or_alt rule seqTag) XNone (acc ++ vs)), s', k) /\
           Forall2 same_shape vs cs /\ flat_map leaf_texts vs = flat_map leaf_texts cs /\ shows s' r /\ forward s s') /\
        ((~ exists r, txt = concat xs ++ r) -> exists er s',
           seq_loop c (parse c f e) (is_cut e) rule ids ps sc s k acc = (RErr er, s', k))).
      { assert (LC : Forall (literal_leaves E) cs).
        { apply Forall_forall. intros v I s x Is. apply LL. simpl. apply in_flat_map. eauto. }
        clear R B LL. revert ts FR xs FB. induction IH as [|v cs Hv Hcs IHc]; intros ts FR xs FB; inversion FR; subst; inversion FB; subst.
        - exists [], O. split; auto. split; [intros e p []|]. intros f e sc s k txt ids acc _ I S. split.
          + intros r ->. exists [], s. simpl in *. rewrite app_nil_r. repeat split; auto using forward_refl.
          + intros N. exfalso. apply N. exists txt. auto.
        - inversion LC as [|? ? L1 L2]; subst.
          match goal with H1 : ref_term v ?u, H2 : bound_value v ?z |- _ =>
            destruct (Hv _ _ H1 H2 L1 ""%string) as (p & f1 & C1 & RG & IC0 & IC & RP) end.
          match goal with H1 : Forall2 ref_term cs ?us, H2 : Forall2 bound_value cs ?zs |- _ =>
            destruct (IHc L2 _ H1 _ H2) as (ps & f2 & C2 & ICs & RPs); rename zs into xs' end.
          exists (p :: ps), (Nat.max f1 f2). split.
          { cbn [ctraverse]. rewrite C1. cbn [cbind]. rewrite C2. cbn [cbind]. rewrite RG. auto. }
          split. { intros e q [<-|I]; [rewrite IC; auto|auto]. }
          intros f e sc s k txt ids acc L I S. cbn [seq_loop].
          destruct (RP f e sc s k txt ltac:(lia) I S) as [RP1 RP2].
          match goal with H : bound_value v ?z |- _ => rename z into z0 end.
          simpl concat. split.
          + intros r Q. rewrite <- app_assoc in Q. destruct (RP1 _ Q) as (v' & s1 & -> & SH & LT & S1 & F1).
            rewrite (IC e), IC0. cbn [fst snd].
            destruct (RPs f e (with_val sc (hd ""%string ids) v') s1 k (concat xs' ++ r) (tl ids) (acc ++ [v']) ltac:(lia)
                        (forward_range _ _ F1) S1) as [X _].
            destruct (X r eq_refl) as (vs & s' & Q2 & SH2 & LT2 & S2 & F2).
            exists (v' :: vs), s'. rewrite Q2, <- app_assoc. split; auto. split; [constructor; auto|].
            split; [simpl; congruence|]. split; auto. eapply forward_trans; eauto.
          + intros N.
            assert (DEC : {r | txt = z0 ++ r} + {~ exists r, txt = z0 ++ r}).
            { destruct (has_prefix z0 txt) eqn:HP.
              - left. exists (skipn (length z0) txt). apply has_prefix_iff in HP as [r ->].
                rewrite skipn_app, Nat.sub_diag, skipn_all. auto.
              - right. intros X. apply has_prefix_iff in X. congruence. }
            destruct DEC as [[r ->]|NP].
            * destruct (RP1 _ eq_refl) as (v' & s1 & -> & SH & LT & S1 & F1). rewrite (IC e), IC0. cbn [fst snd].
              destruct (RPs f e (with_val sc (hd ""%string ids) v') s1 k r (tl ids) (acc ++ [v']) ltac:(lia)
                          (forward_range _ _ F1) S1) as [_ X].
              destruct X as (er & s' & X); [|rewrite X; eauto].
              intros [r' ->]. apply N. exists r'. rewrite app_assoc. auto.
            * destruct (RP2 NP) as (er & s' & ->). destruct (is_fatal er); eauto. }
      destruct G as (ps & f0 & C & ICs & RP).
      exists (PSeq rule (map ident_from_term ts) ps), (S f0). split.
      { cbn [term_parser]. rewrite C. auto. }
      split; auto. split; auto. split; auto.
      intros f e sc s k txt L I S. destruct f as [|f]; [lia|]. cbn [parse]. rewrite no_esc by auto.
      destruct (RP f e sc s k txt (map ident_from_term ts) [] ltac:(lia) I S) as [A B']. split.
      + intros r Q. destruct (A r Q) as (vs & s' & Q2 & SH & LT & S2 & F). simpl in Q2.
        exists (Node (rule_or_alt rule seqTag) XNone vs), s'. split; auto. split; [constructor; auto|].
        rewrite !leaf_texts_node. auto.
      + intros N. destruct (B' N) as (er & s' & Q). eauto.
    - assert (x0 = x) by (unfold shows in *; congruence). subst x0.
      assert (LO : re_lit_ok E x = true) by (apply (LL s0); simpl; auto).
      exists (PS rule x (anchor ++ group (quote_meta x))), 1%nat. split.
      { cbn [term_parser apply_wrap cbind]. unfold must_compile. rewrite (ok_lit_valid _ OK x LO). auto. }
      split; auto. split; auto. split; auto.
      intros f e sc s k txt L I S. destruct f as [|f]; [lia|]. cbn [parse]. rewrite no_esc by auto.
      destruct (literal_eat _ _ _ _ OK LO I S) as [A B']. split.
      + intros r Q. destruct (A r Q) as (l & s' & -> & S1 & S2 & F & _). exists (Leaf l), s'. split; auto.
        split; [constructor|]. split; auto. unfold leaf_texts. simpl. unfold shows in *. congruence.
      + intros N. rewrite (B' N). eauto.
  Qed.

  Theorem back_reference : forall ident d v x sc, lookup ident (svals sc) = Some v -> bound_value v x -> literal_leaves E v ->
    exists f0, forall f e s k txt, (f0 <= f)%nat -> in_range s -> shows s txt ->
      (forall r, txt = x ++ r -> exists v' s', parse c f e (PREF ident d) sc s k = (ROk v', s', k) /\
         same_shape v' v /\ leaf_texts v' = leaf_texts v /\ shows s' r /\ forward s s') /\
      ((~ exists r, txt = x ++ r) -> exists er s', parse c f e (PREF ident d) sc s k = (RErr er, s', k)).
  Proof.
    intros ident d v x sc LK B LL. destruct (bound_ref _ _ B) as [t R].
    destruct (ref_repeats _ _ _ R B LL ident) as (p & f0 & C & _ & _ & _ & RP).
    exists (S f0). intros f e s k txt L I S. destruct f as [|f]; [lia|]. cbn [parse]. rewrite no_esc by auto.
    rewrite LK. pose proof R as R'. apply term_from_ref_val_spec in R'. rewrite R', C.
    destruct (RP f [] sc s k txt ltac:(lia) I S) as [A B']. split.
    - intros r Q. destruct (A r Q) as (v' & s' & -> & SH & LT & S2 & F).
      rewrite (proj2 (nodes_equal_texts _ _ _ R SH) LT). eauto 10.
    - intros N. destruct (B' N) as (er & s' & ->). eauto.
  Qed.
End BackRef.

(** * Reading nested lists *)

Lemma delim_reading : forall r a items v, delim_result r a items v ->
  leaves v = flat_map leaves items /\
  (a = LeftToRight -> forall l s x, items = l ++ [s; x] -> l <> [] ->
     exists w, v = Node (tag_or r delimTag) (XAssoc LeftToRight) [w; s; x] /\ nest_left (tag_or r delimTag) l w) /\
  (a = RightToLeft -> forall x s l, items = x :: s :: l -> l <> [] ->
     exists w, v = Node (tag_or r delimTag) (XAssoc RightToLeft) [x; s; w] /\ nest_right (tag_or r delimTag) l w).
Proof.
  intros r a items v D. split; [|split].
  - eapply delim_result_leaves; eauto.
  - intros -> l s x -> NE. simpl in D. destruct D as [[L _]|[_ D]].
    + rewrite app_length in L. simpl in L. lia.
    + inversion D as [w Q|l' w s' x' N Q]; subst.
      * destruct l as [|? [|? ?]]; discriminate.
      * change (l' ++ [s'; x']) with (l' ++ [s'] ++ [x']) in Q. change (l ++ [s; x]) with (l ++ [s] ++ [x]) in Q.
        rewrite !app_assoc in Q. apply app_inj_tail in Q as [Q ->]. apply app_inj_tail in Q as [-> ->]. eauto.
  - intros -> x s l -> NE. simpl in D. destruct D as [[L _]|[_ D]].
    + destruct l; [congruence|simpl in L; lia].
    + inversion D; subst; eauto.
Qed.
