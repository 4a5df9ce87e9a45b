(** A checker for well-founded grammars over the concrete engine (grammars without nested
    grammars); used for the examples. *)
From Verif Require Import Base Scanner Syntax Engine Resolve Compile Parse Regex RegexProofs PegSpec FlowSpec WfSpec CompileProofs.

(** The expression matches no empty text. *)
Fixpoint solid (r : re) : bool :=
  match r with
  | REps | RStar _ _ | ROpt _ _ | RAssert _ => false
  | RSet _ _ => true
  | RCat a b => solid a || solid b
  | RAlt a b => solid a && solid b
  | RGroup _ a => solid a
  end.

Lemma mext_len : forall a b, mext a b -> length (mrest b) <= length (mrest a).
Proof. intros a b (w & E & _). rewrite E, app_length. lia. Qed.

Lemma solid_strict : forall r st k out, solid r = true -> mt r st k = Some out ->
  exists st', mext st st' /\ k st' = Some out /\ length (mrest st') < length (mrest st).
Proof.
  induction r as [|neg rs|a IHa b IHb|a IHa b IHb|g a IHa|g a IHa|n a IHa|a]; cbn [solid mt]; intros st k out S H; try discriminate.
  - destruct (mrest st) as [|c rest] eqn:E; [discriminate|].
    destruct (in_set neg rs c); [|discriminate].
    eexists; split; [|split; [exact H|simpl; lia]].
    exists [c]. simpl. rewrite E. split; [auto|]. split; [reflexivity|]. auto.
  - apply orb_true_iff in S as [S|S].
    + destruct (IHa _ _ _ S H) as (s1 & E1 & K1 & L1). destruct (mt_sound _ _ _ _ K1) as (s2 & E2 & K2).
      exists s2. split; [eapply mext_trans; eauto|]. split; auto. pose proof (mext_len _ _ E2). lia.
    + destruct (mt_sound _ _ _ _ H) as (s1 & E1 & K1). destruct (IHb _ _ _ S K1) as (s2 & E2 & K2 & L2).
      exists s2. split; [eapply mext_trans; eauto|]. split; auto. pose proof (mext_len _ _ E1). lia.
  - apply andb_true_iff in S as [S1 S2]. unfold orelse in H. destruct (mt a st k) eqn:E.
    + inversion H; subst. eauto.
    + eauto.
  - destruct (IHa _ _ _ S H) as (s1 & (w & E1 & E2 & E3) & K1 & L1).
    eexists; split; [|split; [exact K1|simpl; lia]]. exists w. simpl. split; [auto|]. split; [auto|].
    intros i gg Hg. rewrite cap_get_set in Hg. destruct (Nat.eqb i n); auto.
    inversion Hg; subst; simpl. right. pose proof (blen_nonneg' w). lia.
Qed.

Lemma solid_search : forall r rest pos prev a st, solid r = true -> search r pos prev rest = Some (a, st) ->
  (a < mpos st)%Z.
Proof.
  assert (Here : forall r rest pos prev st, solid r = true -> mt r (mkM pos prev rest []) Some = Some st -> (pos < mpos st)%Z).
  { intros r rest pos prev st S H. destruct (solid_strict _ _ _ _ S H) as (s & (w & E1 & E2 & E3) & K & L).
    inversion K; subst. simpl in *. subst rest. rewrite app_length in L. unfold blen in *. lia. }
  induction rest as [|c rest IH]; intros pos prev a st S H; simpl in H.
  - destruct (mt r (mkM pos prev [] []) Some) eqn:E; [|discriminate]. inversion H; subst. eauto.
  - destruct (mt r (mkM pos prev (c :: rest) []) Some) eqn:E; [|eauto]. inversion H; subst. eauto.
Qed.

Definition bites_b (pat : bytes) : bool :=
  match parse_re (anchor ++ pat) with Some (r, _) => solid r | None => true end.
Lemma bites_b_ok : forall pat, bites_b pat = true -> bites regex_engine pat.
Proof.
  intros pat H t a b gs F. unfold bites_b in H. cbn [re_find regex_engine] in F.
  destruct (parse_re (anchor ++ pat)) as [[r n]|]; [|discriminate].
  destruct (search r 0 None t) as [[a' st]|] eqn:S; [|discriminate]. inversion F; subst.
  pose proof (solid_search _ _ _ _ _ _ H S). apply search_sound in S. lia.
Qed.

Definition token_b (w : option term) (x pre : bytes) : bool :=
  match apply_wrap w x pre with COk pat => bites_b pat | _ => true end.
Definition below_b (k : nat) (b : option nat) : bool := match b with None => true | Some n => Nat.ltb k n end.

(** [nest] ranks the rules of every nested grammar. *)
Section Check.
  Variable nest : ranking.

  Section Lists.
    Variable f : option nat -> term -> bool * bool.
    Fixpoint seq_b (b : option nat) (ts : list term) : bool * bool :=
      match ts with
      | [] => (true, false)
      | t :: ts' => let '(s, e) := f b t in
                    let '(s', e') := seq_b (if e then None else b) ts' in (s && s', e || e')
      end.
    Fixpoint alt_b (b : option nat) (ts : list term) : bool * bool :=
      match ts with
      | [] => (true, true)
      | t :: ts' => let '(s, e) := f b t in let '(s', e') := alt_b b ts' in (s && s', e && e')
      end.
    Definition rule_b (m : ranking) (kv : string * term) : bool :=
      match lookup (fst kv) m with
      | Some (k, e) => let '(s, e') := f (Some k) (snd kv) in s && (negb e || e')
      | None => false
      end.
  End Lists.
  Definition keys_b (g : grammar) (m : ranking) : bool :=
    forallb (fun kv => match lookup (fst kv) g with Some _ => true | None => false end) m.
  Definition inside_b (g : grammar) : bool := forallb (fun kv => is_alias (snd kv) || negb (headrule (snd kv))) g.

  (** (safe, eats) *)
  Fixpoint chk (R : list ranking) (w : option term) (b : option nat) (t : term) {struct t} : bool * bool :=
    match t with
    | TS x => (true, token_b w x (group (quote_meta x)))
    | TRE x => (true, token_b w x (group x))
    | TREF _ _ | TExtRef _ => (true, false)
    | TRule r => match info R r with Some (k, e) => (below_b k b, e) | None => (false, false) end
    | TSeq ts => seq_b (chk R w) b ts
    | TOneof ts => alt_b (chk R w) b ts
    | TDelim t sep _ cs ce =>
        let '(s, e) := chk R w b t in
        let b1 := if e then None else b in
        let '(s1, e1) := chk R w b1 sep in
        let '(s2, _) := chk R w (if e1 then None else b1) t in
        let '(s3, _) := chk R w b sep in
        (s && s1 && s2 && (e1 || e) && (negb cs || s3), e)
    | TLookAhead t => (fst (chk R w b t), false)
    | TNamed _ t | TCut t => chk R w b t
    | TQuant t mn mx => let '(s, e) := chk R w b t in (s && (negb (Nat.eqb mx 0) || e), Nat.ltb 0 mn && e)
    | TScoped t g =>
        let ok := inside_b g && keys_b g nest && forallb (rule_b (chk (nest :: R) (wrap_in g w)) nest) g in
        let '(s, e) := chk (nest :: R) (wrap_in g w) b t in (ok && s, ok && e)
    | TStack _ => (false, false)
    end.

  Lemma token_b_ok : forall w x pre, token_b w x pre = true -> forall pat, token_pattern w x pre pat -> bites regex_engine pat.
  Proof.
    intros w x pre H pat P. apply apply_wrap_spec in P. unfold token_b in H. rewrite P in H. apply bites_b_ok; auto.
  Qed.

  Definition fine (f : option nat -> term -> bool * bool) (R : list ranking) (w : option term) (t : term) : Prop :=
    forall b, (fst (f b t) = true -> safe regex_engine R w b t) /\ (snd (f b t) = true -> eats regex_engine R w t).

  Lemma seq_b_ok : forall f R w ts, Forall (fine f R w) ts -> forall b,
    (fst (seq_b f b ts) = true -> safe_all regex_engine R w b ts) /\
    (snd (seq_b f b ts) = true -> Exists (eats regex_engine R w) ts).
  Proof.
    intros f R w. induction 1 as [|t ts Ht F IH]; intros b; simpl; [split; [constructor|discriminate]|].
    destruct (Ht b) as [A1 A2]. destruct (f b t) as [s e]. destruct (IH (if e then None else b)) as [B1 B2].
    destruct (seq_b f (if e then None else b) ts) as [s' e']. simpl in *. split; intros B.
    - apply andb_true_iff in B as [C1 C2]. destruct e; [apply sa_eaten|apply sa_cons]; auto.
    - apply orb_true_iff in B as [B|B]; [apply Exists_cons_hd|apply Exists_cons_tl]; auto.
  Qed.
  Lemma alt_b_ok : forall f R w ts, Forall (fine f R w) ts -> forall b,
    (fst (alt_b f b ts) = true -> Forall (safe regex_engine R w b) ts) /\
    (snd (alt_b f b ts) = true -> Forall (eats regex_engine R w) ts).
  Proof.
    intros f R w. induction 1 as [|t ts Ht F IH]; intros b; simpl; [split; constructor|].
    destruct (Ht b) as [A1 A2]. destruct (f b t) as [s e]. destruct (IH b) as [B1 B2].
    destruct (alt_b f b ts) as [s' e']. simpl in *. split; intros B; apply andb_true_iff in B as [C1 C2]; auto.
  Qed.
  Lemma table_b_ok : forall f R w g m, Forall (fun kv => fine f R w (snd kv)) g ->
    keys_b g m = true -> forallb (rule_b f m) g = true -> table regex_engine R w g m.
  Proof.
    intros f R w g m F K B. unfold keys_b in K. rewrite forallb_forall in *. rewrite Forall_forall in F.
    assert (A : forall r t, lookup r g = Some t -> exists k e, lookup r m = Some (k, e) /\
       safe regex_engine R w (Some k) t /\ (e = true -> eats regex_engine R w t)).
    { intros r t L. apply lookup_In in L. pose proof (B _ L) as H. unfold rule_b in H. simpl in H.
      destruct (lookup r m) as [[k e]|]; [|discriminate]. exists k, e. split; auto.
      destruct (F _ L (Some k)) as [F1 F2]. simpl in F1, F2. destruct (f (Some k) t) as [s e']. simpl in *.
      apply andb_true_iff in H as [H1 H2]. split; auto. intros ->. auto. }
    constructor.
    - intros r. split; intros N.
      + destruct (lookup r m) as [[k e]|] eqn:L; auto. apply lookup_In in L. apply K in L. simpl in L. rewrite N in L. discriminate.
      + destruct (lookup r g) eqn:L; auto. destruct (A _ _ L) as (k & e & M & _). congruence.
    - intros r t k e L M. destruct (A _ _ L) as (k' & e' & M' & S & _). rewrite M in M'. inversion M'; subst. auto.
    - intros r t k L M. destruct (A _ _ L) as (k' & e' & M' & _ & S). rewrite M in M'. inversion M'; subst. auto.
  Qed.
  Lemma inside_b_ok : forall g, inside_b g = true -> stays_inside g.
  Proof.
    intros g H r u L. unfold inside_b in H. rewrite forallb_forall in H. apply lookup_In in L. apply H in L. simpl in L.
    apply orb_true_iff in L as [L|L]; auto. right. apply negb_true_iff. auto.
  Qed.

  Lemma chk_ok : forall t R w, fine (chk R w) R w t.
  Proof.
    induction t using term_ind'; intros R w b; simpl; try (split; [constructor|discriminate]; fail).
    - destruct (info R r) as [[k e]|] eqn:I; simpl; [|split; discriminate]. split; intros B.
      + econstructor; eauto. destruct b; simpl in *; auto. apply Nat.ltb_lt; auto.
      + subst. econstructor; eauto.
    - split; [constructor|]. intros B. constructor. apply token_b_ok; auto.
    - split; [constructor|]. intros B. constructor. apply token_b_ok; auto.
    - destruct (seq_b_ok (chk R w) R w ts ltac:(eapply Forall_impl; [|exact H]; cbv beta; auto) b). split; intros; constructor; auto.
    - destruct (alt_b_ok (chk R w) R w ts ltac:(eapply Forall_impl; [|exact H]; cbv beta; auto) b). split; intros; constructor; auto.
    - split; discriminate.
    - destruct (IHt1 R w b) as [A1 A2]. destruct (chk R w b t1) as [s e] eqn:C1. set (b1 := if e then None else b) in *.
      destruct (IHt2 R w b1) as [B1 B2]. destruct (chk R w b1 t2) as [s1 e1] eqn:C2.
      destruct (IHt1 R w (if e1 then None else b1)) as [D1 _]. destruct (chk R w (if e1 then None else b1) t1) as [s2 x] eqn:C3.
      destruct (IHt2 R w b) as [F1 _]. destruct (chk R w b t2) as [s3 x3] eqn:C4. simpl in *.
      split; [|intros; constructor; auto]. intros B.
      repeat match goal with H : _ && _ = true |- _ => apply andb_true_iff in H as [? ?] end. subst.
      constructor. constructor.
      assert (INNER : safe regex_engine R w b1 (Any (TSeq [t2; t1]))).
      { constructor.
        - constructor. destruct e1.
          + apply sa_eaten; auto. apply sa_cons; [auto|constructor].
          + apply sa_cons; auto. apply sa_cons; [auto|constructor].
        - intros _. constructor. destruct e1; [apply Exists_cons_hd; auto|].
          destruct e; [|discriminate]. apply Exists_cons_tl, Exists_cons_hd; auto. }
      assert (CORE : safe regex_engine R w b (TSeq [t1; Any (TSeq [t2; t1])])).
      { constructor. unfold b1 in *. destruct e.
        - apply sa_eaten; auto. apply sa_cons; [auto|constructor].
        - apply sa_cons; auto. apply sa_cons; [auto|constructor]. }
      assert (TAIL : safe_all regex_engine R w b ([TSeq [t1; Any (TSeq [t2; t1])]] ++ (if ce then [Opt t2] else []))).
      { simpl. destruct ce; [|apply sa_cons; [auto|constructor]]. unfold b1 in *. destruct e.
        - apply sa_eaten; auto.
          + constructor. apply Exists_cons_hd. auto.
          + apply sa_cons; [|constructor]. constructor; [auto|discriminate].
        - apply sa_cons; auto. apply sa_cons; [|constructor]. constructor; [auto|discriminate]. }
      destruct cs; auto. simpl. apply sa_cons; [constructor; [auto|discriminate]|exact TAIL].
    - destruct (IHt R w b) as [A1 A2]. split; [intros; constructor; auto|discriminate].
    - destruct (IHt R w b) as [A1 A2]. destruct (chk R w b t) as [s e]. simpl in *. split; intros B; apply andb_true_iff in B as [B1 B2].
      + constructor; auto. intros ->. simpl in B2. auto.
      + constructor; auto. apply Nat.ltb_lt. auto.
    - destruct (IHt R w b) as [A1 A2]. split; intros; constructor; auto.
    - destruct (IHt (nest :: R) (wrap_in g w) b) as [A1 A2]. destruct (chk (nest :: R) (wrap_in g w) b t) as [s e]. simpl in *.
      split; intros B; repeat match goal with H : _ && _ = true |- _ => apply andb_true_iff in H as [? ?] end;
        apply (safe_scoped _ R w b t g nest) || apply (eats_scoped _ R w t g nest); auto using inside_b_ok;
        eapply table_b_ok; eauto; eapply Forall_impl; [|exact H| |exact H]; cbv beta; auto.
    - destruct (IHt R w b) as [A1 A2]. split; intros; constructor; auto.
  Qed.

  Definition grammar_b (g : grammar) (m : ranking) : bool :=
    keys_b g m && forallb (rule_b (chk [m] (lookup WrapRE g)) m) g.
  Lemma grammar_b_ok : forall g m, grammar_b g m = true -> well_founded_grammar regex_engine g.
  Proof.
    intros g m H. exists m. apply andb_true_iff in H as [H1 H2]. eapply table_b_ok; eauto.
    apply Forall_forall. intros kv _. apply chk_ok.
  Qed.
End Check.
