(** The PEG reading of [PegSpec] and textbook PEGs agree on textbook grammars. *)
From Verif Require Import Base Scanner ScannerSpec ScannerProofs Syntax Engine Compile Parse PegSpec
  DerivSpec FlowSpec LocalSpec FordSpec CompileProofs FuelProofs PegProofs PegComplete TopProofs DerivProofs FlowProofs LocalProofs.
Local Open Scope Z_scope.

(** * Delimited lists always have a result *)

Lemma nest_left_exists : forall tag n l, length l = (2 * n + 1)%nat -> exists v, nest_left tag l v.
Proof.
  induction n as [|n IH]; intros l L.
  - destruct l as [|v [|? ?]]; simpl in L; try lia. exists v. constructor.
  - assert (exists l' a b, l = l' ++ [a; b] /\ length l' = (2 * n + 1)%nat) as (l' & a & b & -> & L').
    { destruct (rev l) as [|b [|a l']] eqn:R.
      - apply (f_equal (@length _)) in R. rewrite rev_length in R. simpl in R. lia.
      - apply (f_equal (@length _)) in R. rewrite rev_length in R. simpl in R. lia.
      - apply (f_equal (@rev _)) in R. rewrite rev_involutive in R. simpl in R.
        exists (rev l'), a, b. rewrite <- app_assoc in R. split; auto. subst l.
        rewrite !app_length in L. simpl in L. lia. }
    destruct (IH _ L') as [v V]. eexists. constructor. exact V.
Qed.

Lemma nest_right_exists : forall tag n l, length l = (2 * n + 1)%nat -> exists v, nest_right tag l v.
Proof.
  induction n as [|n IH]; intros l L.
  - destruct l as [|v [|? ?]]; simpl in L; try lia. exists v. constructor.
  - destruct l as [|a [|b l]]; simpl in L; try lia. destruct (IH l ltac:(lia)) as [v V].
    eexists. constructor. exact V.
Qed.

Lemma delim_result_exists : forall r a n items, length items = (2 * n + 1)%nat -> exists v, delim_result r a items v.
Proof.
  intros r a n items L. unfold delim_result.
  destruct (nest_left_exists (tag_or r delimTag) n items L) as [v1 V1].
  destruct (nest_right_exists (tag_or r delimTag) n items L) as [v2 V2].
  destruct a; try (eexists; reflexivity);
    destruct (le_lt_dec (length items) 1); eauto.
Qed.

Lemma many_pairs : forall E gs vs sep t s cs s', derives_many E gs vs (TSeq [sep; t]) s cs s' ->
  exists l, pairs_flat cs l /\ length l = (2 * length cs)%nat.
Proof.
  intros E gs vs sep t s cs s' H. remember (TSeq [sep; t]) as u.
  induction H as [gs vs u s|gs vs u s v s1 cs s' D M IH]; subst.
  - exists []. split; [constructor|auto].
  - apply derives_seq_inv in D as (l & -> & A).
    apply derives_all_cons in A as (a & s2 & l1 & -> & DA & A).
    apply derives_all_cons in A as (b & s3 & l2 & -> & DB & A).
    apply derives_all_nil in A as [-> ->].
    destruct (IH eq_refl) as (l & PF & L). exists (a :: b :: l). split; [|simpl; lia].
    constructor; auto. unfold pair_of. eauto.
Qed.

Lemma opt_sep_exists : forall E gs vs sep s v s' lead, derives E gs vs "" (Opt sep) s v s' ->
  exists o m, opt_sep (Some v) o lead /\ length o = (2 * m)%nat.
Proof.
  intros E gs vs sep s v s' lead D. apply derives_quant_inv in D as (l & -> & M & _). simpl.
  destruct l as [|x l].
  - exists [], O. auto.
  - exists (if lead then [Empty; x] else [x; Empty]), 1%nat. destruct lead; auto.
Qed.

Lemma delim_total : forall E gs vs r t sep a cs ce s v s', derives E gs vs r (delim_seq t sep cs ce) s v s' ->
  exists items v', delim_items cs ce v items /\ delim_result r a items v'.
Proof.
  intros E gs vs r t sep a cs ce s v s' D. unfold delim_seq in D. apply derives_seq_inv in D as (l & -> & DS).
  assert (CORE : forall vs s v s', derives E gs vs ""%string (TSeq [t; Any (TSeq [sep; t])]) s v s' ->
     exists first more pairs, (exists t1 x1 t2 x2 r, v = Node t1 x1 (first :: Node t2 x2 more :: r)) /\
       pairs_flat more pairs /\ length pairs = (2 * length more)%nat).
  { intros vs0 s0 v0 s0' D0. apply derives_seq_inv in D0 as (l0 & -> & D0).
    apply derives_all_cons in D0 as (x & s2 & l1 & -> & DA & A).
    apply derives_all_cons in A as (b & s3 & l2 & -> & DB & A).
    apply derives_all_nil in A as [-> ->].
    apply derives_quant_inv in DB as (ms & -> & DM & _).
    destruct (many_pairs _ _ _ _ _ _ _ _ DM) as (pairs & PF & L). exists x, ms, pairs. eauto 10. }
  assert (TRAIL : forall vs s l s', derives_all E gs vs (if ce then [Opt sep] else []) s l s' ->
     exists o m, opt_sep (if ce then hd_error l else None) o false /\ length o = (2 * m)%nat /\ (ce = true -> l <> [])).
  { intros vs0 s0 l0 s0' D0. destruct ce.
    - apply derives_all_cons in D0 as (v3 & s3 & l3 & -> & D3 & D0).
      destruct (opt_sep_exists _ _ _ _ _ _ _ false D3) as (o & m & O & L). exists o, m. split; auto. split; auto. discriminate.
    - exists [], O. simpl. split; auto. split; auto. discriminate. }
  assert (FIN : exists items n, delim_items cs ce (Node (tag_or r seqTag) XNone l) items /\ length items = (2 * n + 1)%nat).
  { destruct cs; simpl in DS.
    - apply derives_all_cons in DS as (v1 & s1 & l1 & -> & D1 & DS).
      apply derives_all_cons in DS as (v2 & s2 & l2 & -> & D2 & DS).
      destruct (opt_sep_exists _ _ _ _ _ _ _ true D1) as (lead & m1 & OL & LL).
      destruct (CORE _ _ _ _ D2) as (first & more & pairs & C & PF & LP).
      destruct (TRAIL _ _ _ _ DS) as (trail & m2 & OT & LT & NT).
      exists (lead ++ first :: pairs ++ trail), (m1 + length more + m2)%nat. split.
      + exists (tag_or r seqTag), XNone, [v1], v2, l2, lead, trail, first, more, pairs. repeat (split; auto).
      + rewrite app_length. simpl. rewrite app_length. lia.
    - apply derives_all_cons in DS as (v2 & s2 & l2 & -> & D2 & DS).
      destruct (CORE _ _ _ _ D2) as (first & more & pairs & C & PF & LP).
      destruct (TRAIL _ _ _ _ DS) as (trail & m2 & OT & LT & NT).
      exists ([] ++ first :: pairs ++ trail), (length more + m2)%nat. split.
      + exists (tag_or r seqTag), XNone, [], v2, l2, [], trail, first, more, pairs.
        split; [auto|split; [auto|split; [reflexivity|repeat (split; auto)]]].
      + simpl. rewrite app_length. lia. }
  destruct FIN as (items & n & DI & L). destruct (delim_result_exists r a n items L) as [v' V]. eauto.
Qed.

(** * Tokens *)

Section Ford.
  Variables (E : engine) (g : grammar).
  Hypothesis OK : engine_ok E.
  Hypothesis TB : textbook_grammar E g.

  Lemma no_wrap : wrap_of [g] = None.
  Proof. simpl. rewrite (proj2 TB). auto. Qed.

  Lemma shows_slice : forall s t, in_range s -> shows s t -> sslice s = Some t.
  Proof. intros s t (o & i & n & W) S. destruct W as (W1 & _). unfold shows, sstring in S. rewrite W1 in S. auto. Qed.

  (** An outcome and a textbook outcome that say the same. *)
  Definition same (o : outcome) (b : option bytes) : Prop :=
    match o, b with
    | Succ v s', Some r => in_range s' /\ shows s' r
    | Fail, None => True
    | _, _ => False
    end.

  Lemma lit_token : forall x s t, re_lit_ok E x = true -> in_range s -> shows s t ->
    exists o b, token E (group (quote_meta x)) s o /\ ford E g (TS x) t b /\ same o b.
  Proof.
    intros x s t LO I S. destruct (literal_eat E x s t OK LO I S) as [A B].
    pose proof (eat_token_spec E (group (quote_meta x)) s) as T. destruct (has_prefix x t) eqn:HP.
    - apply has_prefix_iff in HP as [r ->]. destruct (A r eq_refl) as (l & s' & Q & S1 & S2 & F & _). rewrite Q in T.
      do 2 eexists. split; [exact T|]. split; [apply F_lit|]. split; auto. eapply forward_range; eauto.
    - assert (N : ~ exists r, t = x ++ r) by (intros X; apply has_prefix_iff in X; congruence).
      rewrite (B N) in T. do 2 eexists. split; [exact T|]. split; [apply F_lit_no; auto|]. exact Logic.I.
  Qed.

  Lemma re_token : forall x s t, textbook E (TRE x) -> in_range s -> shows s t ->
    exists o b, token E (group x) s o /\ ford E g (TRE x) t b /\ same o b.
  Proof.
    intros x s t (V1 & V2 & G) I S. pose proof (shows_slice _ _ I S) as SS.
    destruct (re_eat E x s t OK V1 V2 SS) as [A B].
    pose proof (eat_token_spec E (group x) s) as T. destruct (re_find E (anchor ++ group x) t) as [locs|] eqn:F.
    - destruct (B locs eq_refl) as (b & gs & -> & L & LG & M).
      assert (exists l, eat_token E (anchor ++ group x) s = TokOk l (skip s b)) as [l Q].
      { destruct gs as [|g1 [|g2 gs]]; simpl in LG; [eauto|destruct M; eauto|lia]. }
      rewrite Q in T. do 2 eexists. split; [exact T|]. split; [eapply F_re; eauto|]. destruct I as (o & i & n & W). split.
      + exists o, (i + Z.to_nat b)%nat, (n - Z.to_nat b)%nat. apply skip_window; auto; try lia.
        pose proof (window_length _ _ _ _ _ W SS). unfold blen in L. lia.
      + pose proof (window_length _ _ _ _ _ W SS) as LN. unfold blen in L.
        pose proof (eat_splits s o i n (Z.to_nat b) W ltac:(lia)) as X. unfold eat in X. rewrite Z2Nat.id in X by lia.
        destruct X as (X1 & X2 & te & tr & X3 & X4 & X5 & X6). unfold shows in *. rewrite X5 in S. inversion S; subst.
        rewrite X4, <- X6, skipn_app, Nat.sub_diag, skipn_all. auto.
    - rewrite (A eq_refl) in T. do 2 eexists. split; [exact T|]. split; [apply F_re_no; auto|]. exact Logic.I.
  Qed.

  Lemma rule_body_one : forall r gs' t, rule_body [g] r gs' t -> gs' = [g] /\ exists u, lookup r g = Some u /\ alias_body g u t.
  Proof.
    intros r gs' t RB. inversion RB; subst; eauto. match goal with A : rule_body [] _ _ _ |- _ => inversion A end.
  Qed.

  Lemma alias_ford : forall u t, alias_body g u t -> forall x o, ford E g t x o -> ford E g u x o.
  Proof. induction 1; intros; auto. econstructor; eauto. Qed.

  Lemma alias_textbook : forall u t, alias_body g u t -> textbook E u -> textbook E t.
  Proof. induction 1; intros; auto. apply IHalias_body. eapply (proj1 TB); eauto. Qed.

  Definition textbook_list (ts : list term) : Prop :=
    (fix go l := match l with [] => True | u :: l' => textbook E u /\ go l' end) ts.

  Lemma textbook_delim : forall u sep cs ce, textbook E u -> textbook E sep -> textbook E (delim_seq u sep cs ce).
  Proof. intros. unfold delim_seq. destruct cs, ce; simpl; intuition. Qed.

  Definition limit (mx n : nat) : option nat := match mx with O => None | _ => Some (mx - n)%nat end.

  Lemma rep_stop : forall u mn mx n t (o : outcome), (limit mx n = Some O \/ ford E g u t None) -> forall s v,
    in_range s -> shows s t ->
    exists b, ford_rep E g u (mn - n) (limit mx n) t b /\ same (if Nat.leb mn n then Succ v s else Fail) b.
  Proof.
    intros u mn mx n t o H s v I S. destruct (Nat.leb_spec mn n).
    - replace (mn - n)%nat with O by lia. exists (Some t). split; [|split; auto].
      destruct H as [->|H]; [apply FR_full|apply FR_stop; auto].
    - destruct (mn - n)%nat eqn:D; [lia|]. exists None. split; [|exact Logic.I].
      destruct H as [->|H]; [apply FR_never|apply FR_short; auto].
  Qed.

  Lemma limit_room : forall mx n, room mx n <-> limit mx n <> Some O.
  Proof.
    unfold room, limit. intros mx n. destruct mx as [|mx].
    - split; intros; [discriminate|auto].
    - assert (X : Some (S mx - n)%nat = Some O <-> (S mx <= n)%nat).
      { split; intros Q; [assert ((S mx - n)%nat = O) by congruence; lia|f_equal; lia]. }
      rewrite X. lia.
  Qed.

  Lemma commits_not : forall u, textbook E u -> ~ commits [g] u.
  Proof.
    assert (C : forall gs u, commits gs u -> gs = [g] -> textbook E u -> False).
    { induction 1 as [gs t|gs n t C IH|gs t g0 C IH|gs r gs' t RB C IH]; intros Q TX; subst; simpl in *; auto.
      apply rule_body_one in RB as (-> & u & L & AB). apply IH; auto. eapply alias_textbook; eauto. eapply (proj1 TB); eauto. }
    intros u TX CM. eapply C; eauto.
  Qed.

  Theorem peg_ford :
    (forall gs vs r t s o, peg E gs vs r t s o -> gs = [g] -> textbook E t -> forall x, in_range s -> shows s x ->
       exists b, ford E g t x b /\ same o b) /\
    (forall gs vs cut r ts acc s o, peg_seq E gs vs cut r ts acc s o -> gs = [g] -> textbook_list ts -> cut = false ->
       forall x, in_range s -> shows s x -> exists b, ford_seq E g ts x b /\ same o b) /\
    (forall gs vs r i ts s o, peg_alt E gs vs r i ts s o -> gs = [g] -> textbook_list ts ->
       forall x, in_range s -> shows s x -> exists b, ford_choice E g ts x b /\ same o b) /\
    (forall gs vs r mn mx t acc s o, peg_rep E gs vs r mn mx t acc s o -> gs = [g] -> textbook E t ->
       forall x, in_range s -> shows s x ->
       exists b, ford_rep E g t (mn - length acc) (limit mx (length acc)) x b /\ same o b).
  Proof.
    apply peg_mutind.
    - intros gs vs r x s pat o TP T -> TX t I S. rewrite no_wrap in TP. simpl in TP. subst pat.
      destruct (lit_token x s t TX I S) as (o' & b & T' & F & SM).
      rewrite (token_fun _ _ _ _ _ T T'). eauto.
    - intros gs vs r x s pat o TP T -> TX t I S. rewrite no_wrap in TP. simpl in TP. subst pat.
      destruct (re_token x s t TX I S) as (o' & b & T' & F & SM).
      rewrite (token_fun _ _ _ _ _ T T'). eauto.
    - intros gs vs r n t s o P IH Q TX x I S. destruct (IH Q TX x I S) as (b & F & SM). exists b. split; auto. constructor; auto.
    - intros gs vs r t s o P IH Q TX. contradiction.
    - intros gs vs r t g0 s o P IH Q TX. contradiction.
    - intros gs vs r x gs' t s o RB P IH -> TX y I S.
      apply rule_body_one in RB as (-> & u & L & AB).
      destruct (IH eq_refl (alias_textbook _ _ AB (proj1 TB _ _ L)) y I S) as (b & F & SM).
      exists b. split; auto. econstructor; eauto. eapply alias_ford; eauto.
    - intros gs vs r ts s o P IH Q TX x I S. destruct (IH Q TX eq_refl x I S) as (b & F & SM). exists b. split; auto. constructor; auto.
    - intros gs vs r ts s o P IH Q TX x I S. destruct (IH Q TX x I S) as (b & F & SM). exists b. split; auto. constructor; auto.
    - intros gs vs r t mn mx s o P IH Q TX x I S. destruct (IH Q TX x I S) as (b & F & SM). exists b. split; auto. constructor.
      simpl in F. unfold limit in F. rewrite Nat.sub_0_r in F. destruct mx; auto; rewrite ?Nat.sub_0_r in F; auto.
    - intros gs vs r t sep a cs ce s v s' items v' P IH DI DR Q [T1 T2] x I S.
      destruct (IH Q (textbook_delim _ _ cs ce T1 T2) x I S) as (b & F & SM). exists b. split; [constructor; exact F|].
      destruct b; simpl in *; auto.
    - intros gs vs r t sep a cs ce s o O P IH Q [T1 T2] x I S.
      destruct (IH Q (textbook_delim _ _ cs ce T1 T2) x I S) as (b & F & SM). exists b. split; [constructor; exact F|auto].
    - intros gs vs r t s v s' P IH Q TX x I S. destruct (IH Q TX x I S) as (b & F & SM).
      destruct b as [y|]; simpl in SM; [|contradiction]. exists (Some x). split; [econstructor; eauto|]. split; auto.
    - intros gs vs r t s o O P IH Q TX x I S. destruct (IH Q TX x I S) as (b & F & SM).
      destruct O; subst; simpl in SM; destruct b; try contradiction. exists None. split; [constructor; auto|]. exact Logic.I.
    - intros; contradiction.
    - intros; contradiction.
    - intros; contradiction.
    - intros; contradiction.
    - intros; contradiction.
    - intros gs vs cut r acc s Q TX C x I S. exists (Some x). split; [constructor|]. split; auto.
    - intros gs vs cut cut' r t ts acc s v s1 o P IH CM PS' IHs -> [T1 T2] -> x I S.
      destruct (IH eq_refl T1 x I S) as (b & F & SM). destruct b as [y|]; simpl in SM; [|contradiction]. destruct SM as [I1 S1].
      assert (cut' = false).
      { destruct CM as [[CM _]|[_ CM]]; auto. exfalso. eapply commits_not; eauto. }
      destruct (IHs eq_refl T2 H y I1 S1) as (b & F2 & SM2). exists b. split; auto. econstructor; eauto.
    - intros gs vs cut r t ts acc s P IH Q [T1 T2] -> x I S.
      destruct (IH Q T1 x I S) as (b & F & SM). destruct b; simpl in SM; [contradiction|]. exists None. split; [apply FS_no; auto|exact Logic.I].
    - intros gs vs cut r t ts acc s P IH Q [T1 T2] -> x I S.
      destruct (IH Q T1 x I S) as (b & F & SM). destruct b; simpl in SM; contradiction.
    - intros gs vs r i s Q TX x I S. exists None. split; [constructor|exact Logic.I].
    - intros gs vs r i t ts s v s' P IH Q [T1 T2] x I S.
      destruct (IH Q T1 x I S) as (b & F & SM). exists b. destruct b; simpl in SM; [|contradiction]. split; [constructor; auto|auto].
    - intros gs vs r i t ts s o P IH PA IHs Q [T1 T2] x I S.
      destruct (IH Q T1 x I S) as (b & F & SM). destruct b; simpl in SM; [contradiction|].
      destruct (IHs Q T2 x I S) as (b & F2 & SM2). exists b. split; [apply FC_next; auto|auto].
    - intros gs vs r i t ts s P IH Q [T1 T2] x I S.
      destruct (IH Q T1 x I S) as (b & F & SM). destruct b; simpl in SM; contradiction.
    - intros gs vs r mn mx t acc s v s1 o R P IH PR IHs Q TX x I S.
      destruct (IH Q TX x I S) as (b & F & SM). destruct b as [y|]; simpl in SM; [|contradiction]. destruct SM as [I1 S1].
      destruct (IHs Q TX y I1 S1) as (b & F2 & SM2). exists b. split; auto.
      eapply FR_more; [apply limit_room; auto|exact F|].
      rewrite app_length in F2. simpl in F2. replace (pred (mn - length acc)) with (mn - (length acc + 1))%nat by lia.
      replace (less (limit mx (length acc))) with (limit mx (length acc + 1)); auto.
      unfold limit, less. destruct mx; auto. cbn [option_map]. f_equal. lia.
    - intros gs vs r mn mx t acc s R P IH Q TX x I S.
      destruct (IH Q TX x I S) as (b & F & SM). destruct b; simpl in SM; [contradiction|].
      apply rep_stop; auto. exact Fail.
    - intros gs vs r mn mx t acc s R Q TX x I S.
      apply rep_stop; auto; [exact Fail|]. left. destruct (limit mx (length acc)) as [[|n]|] eqn:LM; auto;
        exfalso; apply R; apply limit_room; rewrite LM; discriminate.
    - intros gs vs r mn mx t acc s R P IH Q TX x I S.
      destruct (IH Q TX x I S) as (b & F & SM). destruct b; simpl in SM; contradiction.
  Qed.

  (** Running a term the textbook way, aliases followed. *)
  Definition runs_as (t : term) (x : bytes) (b : option bytes) : Prop :=
    exists body, alias_body g t body /\
      forall vs r s, in_range s -> shows s x -> exists o, peg E [g] vs r body s o /\ same o b.

  Lemma runs_as_peg : forall t x b, runs_as t x b -> forall vs r s, in_range s -> shows s x ->
    exists o, peg E [g] vs r t s o /\ same o b.
  Proof.
    intros t x b (body & AB & R) vs r s I S. inversion AB as [|q u body' L AB']; subst; [eauto|].
    destruct (R vs q s I S) as (o & P & SM). exists o. split; auto. eapply P_rule; eauto. eapply rb_here; eauto.
  Qed.

  Lemma runs_as_self : forall t x b, (forall r, t <> TRule r) ->
    (forall vs r s, in_range s -> shows s x -> exists o, peg E [g] vs r t s o /\ same o b) -> runs_as t x b.
  Proof. intros t x b N H. exists t. split; [constructor; auto|auto]. Qed.

  Lemma same_fail : forall o, same o None -> o = Fail.
  Proof. destruct o; simpl; intros; auto; contradiction. Qed.
  Lemma same_succ : forall o r, same o (Some r) -> exists v s', o = Succ v s' /\ in_range s' /\ shows s' r.
  Proof. destruct o; simpl; intros; try contradiction. eauto. Qed.

  Theorem ford_runs :
    (forall t x b, ford E g t x b -> textbook E t -> runs_as t x b) /\
    (forall ts x b, ford_seq E g ts x b -> textbook_list ts -> forall vs r acc s, in_range s -> shows s x ->
       exists o, peg_seq E [g] vs false r ts acc s o /\ same o b) /\
    (forall ts x b, ford_choice E g ts x b -> textbook_list ts -> forall vs r i s, in_range s -> shows s x ->
       exists o, peg_alt E [g] vs r i ts s o /\ same o b) /\
    (forall t mn' mx' x b, ford_rep E g t mn' mx' x b -> textbook E t -> forall vs r mn mx acc s,
       mn' = (mn - length acc)%nat -> mx' = limit mx (length acc) -> in_range s -> shows s x ->
       exists o, peg_rep E [g] vs r mn mx t acc s o /\ same o b).
  Proof.
    assert (TOK : forall x, re_lit_ok E x = true -> forall t b, ford E g (TS x) t b -> runs_as (TS x) t b).
    { intros x LO t b F. apply runs_as_self; [discriminate|]. intros vs r s I S. destruct (literal_eat E x s t OK LO I S) as [A B].
      pose proof (eat_token_spec E (group (quote_meta x)) s) as T.
      assert (PT : token_pattern (wrap_of [g]) x (group (quote_meta x)) (group (quote_meta x))) by (rewrite no_wrap; reflexivity).
      inversion F; subst.
      - destruct (A _ eq_refl) as (l & s' & Q & S1 & S2 & FW & _). rewrite Q in T.
        eexists. split; [eapply P_lit; eauto|]. split; auto. eapply forward_range; eauto.
      - match goal with N : ~ _ |- _ => rewrite (B N) in T end.
        eexists. split; [eapply P_lit; eauto|]. exact Logic.I. }
    assert (STOP : forall t mn mx acc x vs r s v, True -> in_range s -> shows s x -> textbook E t ->
       (limit mx (length acc) = Some O \/ runs_as t x None) ->
       v = Node (tag_or r quantTag) XNone acc ->
       peg_rep E [g] vs r mn mx t acc s (if Nat.leb mn (length acc) then Succ v s else Fail)).
    { intros t mn mx acc x vs r s v _ I S TX H ->. destruct (limit mx (length acc)) as [[|m]|] eqn:LM.
      - apply PR_full. intros R. apply limit_room in R. contradiction.
      - destruct H as [H|H]; [discriminate|]. destruct (runs_as_peg _ _ _ H vs ""%string s I S) as (o & P & SM). apply same_fail in SM. subst.
        apply PR_stop; auto. apply limit_room. rewrite LM. discriminate.
      - destruct H as [H|H]; [discriminate|]. destruct (runs_as_peg _ _ _ H vs ""%string s I S) as (o & P & SM). apply same_fail in SM. subst.
        apply PR_stop; auto. apply limit_room. rewrite LM. discriminate. }
    apply ford_mutind.
    - intros x r TX. eapply TOK; eauto. constructor.
    - intros x t N TX. eapply TOK; eauto. apply F_lit_no; auto.
    - intros x t b gs F TX. apply runs_as_self; [discriminate|]. intros vs r s I S.
      destruct (re_token x s t TX I S) as (o & b' & T & F' & SM).
      exists o. split.
      + eapply P_re; eauto. rewrite no_wrap. reflexivity.
      + inversion F'; subst; [|congruence].
        match goal with A : re_find _ _ _ = Some ((0, ?z) :: _) |- _ => assert (z = b) by congruence; subst end. auto.
    - intros x t F TX. apply runs_as_self; [discriminate|]. intros vs r s I S.
      destruct (re_token x s t TX I S) as (o & b' & T & F' & SM).
      exists o. split.
      + eapply P_re; eauto. rewrite no_wrap. reflexivity.
      + inversion F'; subst; [congruence|auto].
    - intros r u t o L F IH TX.
      destruct (IH (proj1 TB _ _ L)) as (body & AB & R). exists body. split; auto. econstructor; eauto.
    - intros n u t o F IH TX. apply runs_as_self; [discriminate|]. intros vs r s I S.
      destruct (runs_as_peg _ _ _ (IH TX) vs n s I S) as (o' & P & SM). exists o'. split; auto. constructor; auto.
    - intros us t o F IH TX. apply runs_as_self; [discriminate|]. intros vs r s I S.
      destruct (IH TX vs r [] s I S) as (o' & P & SM). exists o'. split; auto. constructor; auto.
    - intros us t o F IH TX. apply runs_as_self; [discriminate|]. intros vs r s I S.
      destruct (IH TX vs r O s I S) as (o' & P & SM). exists o'. split; auto. constructor; auto.
    - intros u mn mx t o F IH TX. apply runs_as_self; [discriminate|]. intros vs r s I S.
      destruct (IH TX vs r mn mx [] s) as (o' & P & SM); auto.
      { simpl. lia. }
      { unfold limit. simpl. destruct mx; auto. }
      exists o'. split; auto. constructor; auto.
    - intros u t r F IH TX. apply runs_as_self; [discriminate|]. intros vs rl s I S.
      destruct (runs_as_peg _ _ _ (IH TX) vs ""%string s I S) as (o' & P & SM). apply same_succ in SM as (v & s' & -> & _).
      eexists. split; [eapply P_look; eauto|]. split; auto.
    - intros u t F IH TX. apply runs_as_self; [discriminate|]. intros vs rl s I S.
      destruct (runs_as_peg _ _ _ (IH TX) vs ""%string s I S) as (o' & P & SM). apply same_fail in SM. subst.
      exists Fail. split; [eapply P_look_no; eauto|exact Logic.I].
    - intros u sep a cs ce t o F IH [T1 T2]. apply runs_as_self; [discriminate|]. intros vs r s I S.
      destruct (runs_as_peg _ _ _ (IH (textbook_delim _ _ cs ce T1 T2)) vs r s I S) as (o' & P & SM).
      destruct o' as [v s'| |].
      + destruct (delim_total E [g] vs r u sep a cs ce s v s') as (items & v' & DI & DR).
        { eapply (proj1 (peg_derives E)); eauto. }
        eexists. split; [eapply P_delim; [exact P|eauto|eauto]|]. destruct o; auto.
      + exists Fail. split; [eapply P_delim_no; [left; reflexivity|exact P]|auto].
      + destruct o; contradiction.
    - intros t TX vs r acc s I S. eexists. split; [constructor|]. split; auto.
    - intros u us t t1 o F IH FS IHs [T1 T2] vs r acc s I S.
      destruct (runs_as_peg _ _ _ (IH T1) vs ""%string s I S) as (o' & P & SM). apply same_succ in SM as (v & s' & -> & I1 & S1).
      destruct (IHs T2 (bind vs (label u) v) r (acc ++ [v]) s' I1 S1) as (o' & P2 & SM2).
      exists o'. split; auto. eapply PS_next; eauto. right. split; auto. apply commits_not; auto.
    - intros u us t F IH [T1 T2] vs r acc s I S.
      destruct (runs_as_peg _ _ _ (IH T1) vs ""%string s I S) as (o' & P & SM). apply same_fail in SM. subst.
      exists Fail. split; [|exact Logic.I]. apply (PS_fail E [g] vs false); auto.
    - intros t TX vs r i s I S. exists Fail. split; [constructor|exact Logic.I].
    - intros u us t r F IH [T1 T2] vs rl i s I S.
      destruct (runs_as_peg _ _ _ (IH T1) vs ""%string s I S) as (o' & P & SM). apply same_succ in SM as (v & s' & -> & I1 & S1).
      eexists. split; [eapply PA_here; eauto|]. split; auto.
    - intros u us t o F IH FC IHs [T1 T2] vs r i s I S.
      destruct (runs_as_peg _ _ _ (IH T1) vs ""%string s I S) as (o' & P & SM). apply same_fail in SM. subst.
      destruct (IHs T2 vs r (Datatypes.S i) s I S) as (o' & P2 & SM2). exists o'. split; auto. eapply PA_next; eauto.
    - intros u mn' mx' t t1 o NM F IH FR IHs TX vs r mn mx acc s -> -> I S.
      destruct (runs_as_peg _ _ _ (IH TX) vs ""%string s I S) as (o' & P & SM). apply same_succ in SM as (v & s' & -> & I1 & S1).
      destruct (IHs TX vs r mn mx (acc ++ [v]) s') as (o' & P2 & SM2); auto.
      { rewrite app_length. simpl. lia. }
      { rewrite app_length. unfold limit, less. destruct mx; auto. cbn [option_map]. f_equal. simpl length. lia. }
      exists o'. split; auto. eapply PR_more; eauto. apply limit_room. auto.
    - intros u mx' t F IH TX vs r mn mx acc s Q -> I S.
      exists (if Nat.leb mn (length acc) then Succ (Node (tag_or r quantTag) XNone acc) s else Fail).
      split; [eapply STOP; eauto|]. destruct (Nat.leb_spec mn (length acc)); [split; auto|lia].
    - intros u mn' mx' t F IH TX vs r mn mx acc s Q -> I S.
      exists (if Nat.leb mn (length acc) then Succ (Node (tag_or r quantTag) XNone acc) s else Fail).
      split; [eapply STOP; eauto|]. destruct (Nat.leb_spec mn (length acc)); [lia|exact Logic.I].
    - intros u t TX vs r mn mx acc s Q Q2 I S.
      exists (if Nat.leb mn (length acc) then Succ (Node (tag_or r quantTag) XNone acc) s else Fail).
      split; [eapply STOP; eauto|]. destruct (Nat.leb_spec mn (length acc)); [split; auto|lia].
    - intros u mn' t TX vs r mn mx acc s Q Q2 I S.
      exists (if Nat.leb mn (length acc) then Succ (Node (tag_or r quantTag) XNone acc) s else Fail).
      split; [eapply STOP; eauto|]. destruct (Nat.leb_spec mn (length acc)); [lia|exact Logic.I].
  Qed.

  (** Rule by rule. *)
  Theorem means_ford : forall r s x, in_range s -> shows s x ->
    (forall rest, (exists v s', means E g r s (Succ v s') /\ shows s' rest) <-> ford E g (TRule r) x (Some rest)) /\
    (means E g r s Fail <-> ford E g (TRule r) x None) /\
    ~ means E g r s Abort.
  Proof.
    intros r s x I S. unfold means.
    assert (A : forall o, peg E [g] [] ""%string (TRule r) s o -> exists b, ford E g (TRule r) x b /\ same o b).
    { intros o P. eapply (proj1 peg_ford); eauto. exact Logic.I. }
    assert (B : forall b, ford E g (TRule r) x b -> exists o, peg E [g] [] ""%string (TRule r) s o /\ same o b).
    { intros b F. eapply runs_as_peg; eauto. apply (proj1 ford_runs); auto. exact Logic.I. }
    split; [|split].
    - intros rest. split.
      + intros (v & s' & P & SH). destruct (A _ P) as (b & F & SM). destruct b as [y|]; simpl in SM; [|contradiction].
        destruct SM as [_ SM]. unfold shows in *. rewrite SH in SM. inversion SM; subst. auto.
      + intros F. destruct (B _ F) as (o & P & SM). apply same_succ in SM as (v & s' & -> & _ & SH). eauto.
    - split.
      + intros P. destruct (A _ P) as (b & F & SM). destruct b; simpl in SM; [contradiction|auto].
      + intros F. destruct (B _ F) as (o & P & SM). apply same_fail in SM. subst. auto.
    - intros P. destruct (A _ P) as (b & F & SM). destruct b; contradiction.
  Qed.
End Ford.
