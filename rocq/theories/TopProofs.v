(** From compiled parsers to whole grammars: [Grammar.Compile] and [ParseWithExternals]. *)
From Verif Require Import Base Scanner ScannerSpec ScannerProofs Syntax Engine Resolve Compile Parse
  PegSpec CompileProofs FuelProofs PegProofs PegComplete.
Local Open Scope Z_scope.

(** * Compilation *)

(** The grammar all of whose stacks are resolved. *)
Definition resolve_all (g : grammar) : cres grammar :=
  cbind (resolve_stacks g) (ctraverse (fun kv => cbind (prep (snd kv)) (fun u => COk (fst kv, u)))).

Lemma ctraverse_id : forall A (f : A -> cres A) l, Forall (fun x => f x = COk x) l -> ctraverse f l = COk l.
Proof. induction 1 as [|x l H F IH]; simpl; auto. rewrite H, IH. auto. Qed.

Lemma no_stack_resolve : forall g, existsb (fun kv => is_stack (snd kv)) g = false -> resolve_stacks g = COk g.
Proof. intros g H. unfold resolve_stacks. rewrite H. auto. Qed.

Lemma no_stack_none : forall g, no_stack_grammar g = true -> existsb (fun kv => is_stack (snd kv)) g = false.
Proof.
  induction g as [|[k t] g IH]; simpl; auto. intros H. apply andb_true_iff in H as [H1 H2].
  rewrite IH by auto. destruct t; auto; discriminate.
Qed.

Lemma Forall_forallb : forall A (f : A -> bool) (P : A -> Prop) l, Forall (fun x => f x = true -> P x) l ->
  forallb f l = true -> Forall P l.
Proof.
  induction 1 as [|x l H F IH]; simpl; intros B; constructor; apply andb_true_iff in B as [B1 B2]; auto.
Qed.

Lemma no_stack_prep : forall t, no_stack t = true -> prep t = COk t.
Proof.
  induction t using term_ind'; simpl; intros NS; auto; try discriminate;
    repeat match goal with H : _ && _ = true |- _ => apply andb_true_iff in H as [? ?] end;
    try (rewrite IHt by auto; reflexivity).
  - rewrite (ctraverse_id _ prep ts); auto. eapply Forall_forallb; eauto.
  - rewrite (ctraverse_id _ prep ts); auto. eapply Forall_forallb; eauto.
  - rewrite IHt1, IHt2 by auto. reflexivity.
  - rewrite IHt by auto. simpl. rewrite ctraverse_id.
    + simpl. rewrite no_stack_resolve by (apply no_stack_none; auto). reflexivity.
    + rewrite Forall_forall in H. rewrite forallb_forall in H1. apply Forall_forall.
      intros [k u] I. pose proof (H _ I (H1 _ I)) as X. simpl in X |- *. rewrite X. reflexivity.
Qed.

Lemma no_stack_resolve_all : forall g, no_stack_grammar g = true -> resolve_all g = COk g.
Proof.
  intros g H. unfold resolve_all. rewrite no_stack_resolve by (apply no_stack_none; auto). simpl.
  apply ctraverse_id. unfold no_stack_grammar in H. rewrite forallb_forall in H.
  apply Forall_forall. intros [k u] I. pose proof (no_stack_prep _ (H _ I)) as X. simpl in X |- *. rewrite X. reflexivity.
Qed.

Lemma compile_resolve_all : forall E g ps, compile E g = COk ps ->
  exists g2, resolve_all g = COk g2 /\ compile_rules (rule_fns E (wrap_of [g2]) g2) = COk (p_rules ps).
Proof.
  intros E g ps H. unfold compile in H. apply cbind_ok in H as (g1 & H1 & H).
  apply cbind_ok in H as (rules & H2 & H). inversion H; subst; clear H.
  unfold compile_resolved in H2. apply cbind_ok in H2 as (g2 & H2 & H3).
  exists g2. split; [unfold resolve_all; rewrite H1; exact H2|].
  assert (W : wrap_of [g2] = lookup WrapRE g2) by (simpl; destruct (lookup WrapRE g2); auto).
  cut (compile_rules (rule_fns E (lookup WrapRE g2) g2) = COk rules); [|exact H3].
  rewrite <- W. auto.
Qed.

Lemma plain_grammar_lookup : forall g, plain_grammar g = true ->
  forall r u, lookup r g = Some u -> plain u = true.
Proof.
  intros g H r u L. apply lookup_In in L. unfold plain_grammar in H. rewrite forallb_forall in H.
  apply (H _ L).
Qed.

Lemma compile_env : forall E g g2 ps, compile E g = COk ps -> resolve_all g = COk g2 ->
  plain_grammar g2 = true -> env_ok E [p_rules ps] [g2].
Proof.
  intros E g g2 ps H R P. destruct (compile_resolve_all _ _ _ H) as (g3 & R3 & C).
  assert (g3 = g2) by congruence. subst g3.
  constructor; [constructor|exact C|apply plain_grammar_lookup; auto].
Qed.

Lemma readable_env : forall E g ps, compile E g = COk ps -> readable g -> env_ok E [p_rules ps] [g].
Proof. intros E g ps H [NS P]. eapply compile_env; eauto. apply no_stack_resolve_all; auto. Qed.

(** * Running a rule *)

Lemma top_env : forall E rules g r q, env_ok E [rules] [g] -> lookup r rules = Some q ->
  exists t, rule_body [g] r [g] t /\ comp E [g] r t q /\ plain t = true.
Proof.
  intros E rules g r q H L. pose proof (resolve_link_body _ _ _ r H) as B. simpl in B. rewrite L in B.
  destruct B as (gs' & t' & B1 & B2 & B3 & B4).
  assert (gs' = [g]).
  { inversion B1; subst; auto. match goal with A : rule_body [] _ _ _ |- _ => inversion A end. }
  subst. eauto.
Qed.

Section Run.
  Variable c : config.
  Hypothesis no_escape : cf_esc c = None.
  Hypothesis ids : ids_ok (cf_rnd c).
  Notation E := (cf_eng c).
  Variables (g : grammar) (ps : parsers).
  Hypothesis env : env_ok E [p_rules ps] [g].

  Definition is_plain_err (e : perr) : Prop := match e with EParse _ => True | _ => False end.
  Definition is_fatal_err (e : perr) : Prop := match e with EFatal _ _ => True | _ => False end.

  Lemma run_sound : forall f r s,
    match parse_rule c f ps r s with
    | (ROk v, s') => means E g r s (Succ v s') /\ shows s' []
    | (RErr (EUnconsumed s1 v), s') => s1 = s' /\ means E g r s (Succ v s') /\ exists t, shows s' t /\ t <> []
    | (RErr e, _) => is_plain_err e /\ means E g r s Fail \/ is_fatal_err e /\ means E g r s Abort
    | _ => True
    end.
  Proof.
    intros f r s. unfold parse_rule.
    destruct (lookup r (p_rules ps)) as [q|] eqn:L; [|exact I].
    destruct (top_env _ _ _ _ _ env L) as (t & RB & HC & HP).
    pose proof (proj1 (parse_sound_at c no_escape ids f) [p_rules ps] [g] r t q empty_scope s 0%nat env HC HP
                  (or_introl eq_refl)) as A.
    destruct (parse c f [p_rules ps] q empty_scope s 0) as [[[v|e| |] s'] k']; try exact I; cbn [agrees] in A.
    - destruct A as [_ A].
      assert (M : means E g r s (Succ v s')) by (eapply P_rule; eauto).
      destruct (sstring s') as [[|b t0]|] eqn:S; [auto| |exact I].
      split; auto. split; auto. exists (b :: t0). split; [exact S|discriminate].
    - destruct A as [_ [[M A]|[AB A]]].
      + destruct e; simpl in M; try tauto.
        * left. split; [exact I|]. eapply P_rule; eauto.
        * destruct M as [_ M]. discriminate.
      + destruct AB as (r0 & j & -> & _). right. split; [exact I|]. eapply P_rule; eauto.
  Qed.

  Variable refs : bool.
  Hypothesis lits : refs = true -> forall x, re_valid E (anchor ++ group (quote_meta x)) = true.
  Hypothesis hook : hooked_grammar refs g = true.

  Lemma hooked_all : all_hooked refs [g].
  Proof.
    constructor; [|constructor]. unfold hooked_grammar in hook. rewrite forallb_forall in hook.
    split; intros r u L; apply lookup_In in L; apply hook in L; simpl in L; apply andb_true_iff in L as [L1 L2]; auto.
    apply orb_true_iff in L2 as [L2|L2]; auto. right. apply negb_true_iff in L2; auto.
  Qed.

  Lemma run_complete : forall r s o, means E g r s o ->
    exists f0, forall f, (f0 <= f)%nat ->
    match o with
    | Succ v s' =>
        (shows s' [] -> parse_rule c f ps r s = (ROk v, s')) /\
        (forall t, t <> [] -> shows s' t -> parse_rule c f ps r s = (RErr (EUnconsumed s' v), s'))
    | Fail => exists e s', parse_rule c f ps r s = (RErr e, s') /\ is_plain_err e
    | Abort => exists e s', parse_rule c f ps r s = (RErr e, s') /\ is_fatal_err e
    end.
  Proof.
    intros r s o M. unfold means in M. inversion M as [| | | | |? ? ? ? gs' t ? ? RB P| | | | | | | | | | | |]; subst.
    assert (gs' = [g]).
    { inversion RB; subst; auto. match goal with A : rule_body [] _ _ _ |- _ => inversion A end. }
    subst gs'.
    destruct (rule_body_link c refs _ _ _ _ _ env hooked_all RB) as (q & e' & RL & HE & HH & HC & HP & HK & NP).
    simpl in RL. destruct (lookup r (p_rules ps)) as [q'|] eqn:L; [|discriminate].
    inversion RL; subst q' e'; clear RL.
    destruct (proj1 (parse_complete c no_escape ids refs lits) _ _ _ _ _ _ P [p_rules ps] q empty_scope 0%nat
                HE HH HC HP HK eq_refl (or_introl eq_refl)) as (f0 & Y).
    rewrite (reg_not_prule q NP) in Y. exists f0. intros f Hf.
    pose proof (more_fuel c f0 f _ _ _ _ _ _ _ _ Hf Y) as Y'. clear Y.
    unfold parse_rule. rewrite L.
    destruct (parse c f [p_rules ps] q empty_scope s 0) as [[[v'|e| |] s'] k']; destruct o as [v s1| |]; try contradiction;
      cbn [yields] in Y'.
    - destruct Y' as (-> & -> & _). unfold shows. split; intros.
      + rewrite H. auto.
      + rewrite H0. destruct t0; [congruence|auto].
    - destruct Y' as [_ M2]. exists e, s'. split; auto. destruct e; simpl in M2; try tauto; try exact I.
      destruct M2 as [_ M2]. discriminate.
    - destruct Y' as (_ & r0 & j & -> & _). eexists _, _. split; eauto. exact I.
  Qed.
End Run.

(** * Without cut points the random stream is not used *)

Definition with_rnd (c : config) (rnd : nat -> Z) : config := mkConfig (cf_eng c) (cf_ext c) (cf_esc c) rnd.

Fixpoint p_nocut (p : parser) : bool :=
  match p with
  | PRule _ _ | PLink _ | PS _ _ _ | PRE _ _ _ | PREF _ _ | PExt _ => true
  | PSeq _ _ ps => forallb p_nocut ps
  | POneof _ ps => forallb p_nocut ps
  | PDelim _ _ _ _ q => p_nocut q
  | PLook _ q => p_nocut q
  | PQuant _ _ _ q => p_nocut q
  | PCut _ => false
  | PScoped rules q => forallb (fun kv => p_nocut (snd kv)) rules && p_nocut q
  end.
Definition env_nocut (e : env) : Prop := Forall (fun rules => forall r q, lookup r rules = Some q -> p_nocut q = true) e.

Lemma p_nocut_reg : forall p, p_nocut (reg p) = p_nocut p.
Proof. destruct p; auto. Qed.

Lemma Forall2_In_r : forall A B (R : A -> B -> Prop) l m y, Forall2 R l m -> In y m ->
  exists x, In x l /\ R x y.
Proof.
  induction 1 as [|a b l m H F IH]; intros I; [destruct I|].
  destruct I as [<-|I]; [exists a; split; [left; auto|auto]|].
  destruct (IH I) as (x & I' & X). exists x. split; [right; auto|auto].
Qed.

Lemma ctraverse_reg_nocut : forall E wrap ts ps,
  Forall (fun t => forall wrap rule p, no_cut t = true -> term_parser E t wrap rule = COk p -> p_nocut p = true) ts ->
  forallb no_cut ts = true ->
  ctraverse (fun x => cbind (term_parser E x wrap "") (fun p => COk (reg p))) ts = COk ps -> forallb p_nocut ps = true.
Proof.
  intros E wrap ts ps F. revert ps. induction F as [|t ts H F IH]; intros ps N C; simpl in *.
  - inversion C; auto.
  - apply andb_true_iff in N as [N1 N2]. apply cbind_ok in C as (p & Hp & C).
    apply cbind_ok in Hp as (p0 & Hp0 & Hp). apply cbind_ok in C as (ps' & Hps & C).
    inversion C; subst. inversion Hp; subst. simpl. rewrite p_nocut_reg, (H _ _ _ N1 Hp0). simpl. eauto.
Qed.

Lemma term_parser_nocut : forall E t wrap rule p, no_cut t = true ->
  term_parser E t wrap rule = COk p -> p_nocut p = true.
Proof.
  intros E t. induction t using term_ind'; intros wrap rule p N C; simpl in N, C;
    try (inversion C; subst; reflexivity); try discriminate;
    repeat match goal with H : _ && _ = true |- _ => apply andb_true_iff in H as [? ?] end.
  - apply cbind_ok in C as (? & _ & C). apply cbind_ok in C as (? & _ & C). inversion C; subst. auto.
  - apply cbind_ok in C as (? & _ & C). apply cbind_ok in C as (? & _ & C). inversion C; subst. auto.
  - apply cbind_ok in C as (ps & C1 & C). inversion C; subst. simpl. eapply ctraverse_reg_nocut; eauto.
  - apply cbind_ok in C as (ps & C1 & C). inversion C; subst. simpl. eapply ctraverse_reg_nocut; eauto.
  - apply cbind_ok in C as (pt & C1 & C). apply cbind_ok in C as (psep & C2 & C). inversion C; subst.
    pose proof (IHt1 _ _ _ H C1) as A. pose proof (IHt2 _ _ _ H0 C2) as B.
    rewrite <- p_nocut_reg in A, B. destruct cs, ce; simpl; rewrite ?A, ?B; auto.
  - apply cbind_ok in C as (q & C1 & C). inversion C; subst. simpl. rewrite p_nocut_reg. eauto.
  - apply cbind_ok in C as (q & C1 & C). inversion C; subst. simpl. rewrite p_nocut_reg. eauto.
  - eauto.
  - apply cbind_ok in C as (rules & C1 & C). apply cbind_ok in C as (q & C2 & C). inversion C; subst; clear C.
    pose proof (IHt _ _ _ H0 C2) as A.
    change (compile_rules (rule_fns E (match lookup WrapRE g with Some w => Some w | None => wrap end) g) = COk rules) in C1.
    assert (B : forallb (fun kv => p_nocut (snd kv)) rules = true).
    { unfold compile_rules in C1. apply ctraverse_ok in C1. apply forallb_forall. intros [k q0] I. simpl.
      assert (X : exists x, In x (rule_fns E (match lookup WrapRE g with Some w => Some w | None => wrap end) g) /\
        (let '(r, (t, f)) := x in cbind (chase (S (length (rule_fns E (match lookup WrapRE g with Some w => Some w | None => wrap end) g)))
           (rule_fns E (match lookup WrapRE g with Some w => Some w | None => wrap end) g) t f) (fun f' => cbind (f' r) (fun p => COk (r, p)))) = COk (k, q0)).
      { destruct (Forall2_In_r _ _ _ _ _ _ C1 I) as (x & IX & X). eauto. }
      destruct X as ([r [u f]] & IX & X). apply in_map_iff in IX as ([k2 u2] & EX & IX). simpl in EX. inversion EX; subst; clear EX.
      apply cbind_ok in X as (f' & X1 & X). apply cbind_ok in X as (p' & X2 & X). inversion X; subst.
      destruct (chase_ok _ _ _ _ _ _ X1) as (t' & AB & ->).
      assert (exists k', In (k', t') g) as (k' & I').
      { clear -AB IX. assert (exists k', In (k', u) g) as IX' by eauto. clear IX.
        induction AB; auto. apply IHAB. apply lookup_In in H. eauto. }
      rewrite Forall_forall in H. rewrite forallb_forall in H1. apply (H _ I' _ _ _ (H1 _ I') X2). }
    unfold scoped_result.
    assert (G : forall q, p_nocut q = true -> p_nocut (PScoped rules q) = true).
    { intros q' Q. cbn [p_nocut]. rewrite B, Q. auto. }
    destruct q; try (apply G; exact A).
    destruct (lookup t0 rules) as [q|] eqn:L; auto.
    apply lookup_In in L. rewrite forallb_forall in B. pose proof (B _ L) as BQ. cbn [snd] in BQ.
    destruct q; try (apply G; exact BQ). auto.
Qed.

Lemma is_cut0_nocut : forall p, p_nocut p = true -> is_cut0 p = false.
Proof.
  induction p using parser_ind'; simpl; intros N; auto; try discriminate.
  apply andb_true_iff in N as [_ N]. auto.
Qed.

Lemma resolve_link_nocut : forall e r q e', env_nocut e -> resolve_link e r = Some (q, e') ->
  p_nocut q = true /\ env_nocut e'.
Proof.
  induction e as [|rules e IH]; intros r q e' N R; simpl in R; [discriminate|].
  inversion N as [|? ? N1 N2]; subst. destruct (lookup r rules) eqn:L.
  - inversion R; subst. split; eauto.
  - eauto.
Qed.

Lemma is_cut_nocut : forall e p, env_nocut e -> p_nocut p = true -> is_cut e p = false.
Proof.
  intros e p N P. destruct p; try (apply is_cut0_nocut; auto; fail).
  simpl. destruct (resolve_link e t) as [[q e']|] eqn:R; auto.
  apply is_cut0_nocut. eapply resolve_link_nocut; eauto.
Qed.

Lemma ref_term_nocut : forall v t, ref_term v t -> no_cut t = true.
Proof.
  induction v as [tag x cs IH|s0|] using tree_ind'; intros t R; inversion R; subst; auto.
  simpl. match goal with H : Forall2 _ _ _ |- _ => revert H end. clear R.
  revert ts. induction IH; intros ts F; inversion F; subst; simpl; auto.
  apply andb_true_iff. split; eauto.
Qed.

Section NoRnd.
  Variable c : config.
  Variable rnd : nat -> Z.
  Notation c' := (with_rnd c rnd).

  Definition same_runs (run run' : parser -> scope -> scanner -> nat -> out) : Prop :=
    forall p sc inp k, p_nocut p = true -> cp_valid (scut sc) = false -> run p sc inp k = run' p sc inp k.

  Lemma with_val_cut : forall sc n v, scut (with_val sc n v) = scut sc.
  Proof. intros. unfold with_val. destruct (String.eqb n ""); auto. Qed.

  Lemma seq_same : forall run run' iscut rule, same_runs run run' ->
    forall ps ids sc inp k acc, forallb p_nocut ps = true -> (forall p, p_nocut p = true -> iscut p = false) ->
    cp_valid (scut sc) = false ->
    seq_loop c run iscut rule ids ps sc inp k acc = seq_loop c' run' iscut rule ids ps sc inp k acc.
  Proof.
    intros run run' iscut rule S. induction ps as [|p ps IH]; intros ids sc inp k acc N NC V; auto.
    simpl in N. apply andb_true_iff in N as [N1 N2]. cbn [seq_loop].
    rewrite <- (S p sc inp k N1 V). destruct (run p sc inp k) as [[[v|e| |] s'] k']; auto.
    rewrite (NC p N1). apply IH; auto. rewrite with_val_cut. auto.
  Qed.

  Lemma oneof_same : forall run run' rule, same_runs run run' ->
    forall ps i sc pc mc inp far k, forallb p_nocut ps = true -> cp_valid (scut sc) = false ->
    oneof_loop run rule i ps sc pc mc inp far k = oneof_loop run' rule i ps sc pc mc inp far k.
  Proof.
    intros run run' rule S. induction ps as [|p ps IH]; intros i sc pc mc inp far k N V; auto.
    simpl in N. apply andb_true_iff in N as [N1 N2]. cbn [oneof_loop].
    rewrite <- (S p sc inp k N1 V). destruct (run p sc inp k) as [[[v|e| |] s'] k']; auto.
    destruct (not_my_fatal e mc); auto.
  Qed.

  Lemma quant_same : forall run run' rule mn mx p, same_runs run run' -> p_nocut p = true ->
    forall fuel sc pc mc inp k acc, cp_valid (scut sc) = false ->
    quant_loop run fuel rule mn mx p sc pc mc inp k acc = quant_loop run' fuel rule mn mx p sc pc mc inp k acc.
  Proof.
    intros run run' rule mn mx p S N. induction fuel as [|fuel IH]; intros sc pc mc inp k acc V; cbn [quant_loop]; auto.
    destruct (Nat.eqb mx 0 || Nat.ltb (length acc) mx); auto.
    rewrite <- (S p sc inp k N V). destruct (run p sc inp k) as [[[v|e| |] s'] k']; auto.
  Qed.

  Lemma with_escape_same : forall sc inp k f g, f tt = g tt -> with_escape c sc inp k f = with_escape c' sc inp k g.
  Proof.
    intros sc inp k f g H. unfold with_escape, with_rnd. simpl. destruct (cf_esc c); auto.
    destruct (eat_regexp _ _ inp 0); auto.
  Qed.

  Lemma parse_rnd : forall f e p sc inp k, p_nocut p = true -> env_nocut e -> cp_valid (scut sc) = false ->
    parse c f e p sc inp k = parse c' f e p sc inp k.
  Proof.
    induction f as [|f IH]; intros e p sc inp k N NE V; auto.
    assert (SR : forall e, env_nocut e -> same_runs (parse c f e) (parse c' f e)).
    { intros e0 NE0 p0 sc0 inp0 k0 N0 V0. apply IH; auto. }
    destruct p; cbn [parse]; simpl in N; auto;
      try (apply with_escape_same); auto.
    - destruct (resolve_link e t) as [[q e']|] eqn:R; auto.
      destruct (resolve_link_nocut _ _ _ _ NE R). auto.
    - apply seq_same; auto. intros. apply is_cut_nocut; auto.
    - rewrite <- IH by auto. reflexivity.
    - rewrite <- IH by auto. reflexivity.
    - unfold replace_cut. rewrite V. simpl. apply quant_same; auto.
    - unfold replace_cut. rewrite V. simpl. apply oneof_same; auto.
    - cbn [cf_eng with_rnd].
      assert (G : forall t, no_cut t = true -> forall q, term_parser (cf_eng c) t None ident = COk q ->
        parse c f [] q sc inp k = parse c' f [] q sc inp k).
      { intros t Nt q Q. apply IH; auto; [eapply term_parser_nocut; eauto|constructor]. }
      destruct (lookup ident (svals sc)) as [v|].
      + destruct (term_from_ref_val v) as [t|] eqn:T; auto. apply term_from_ref_val_spec in T.
        destruct (term_parser (cf_eng c) t None ident) as [q| |] eqn:Q; auto.
        rewrite (G t (ref_term_nocut _ _ T) q Q). auto.
      + destruct default as [d|]; auto.
        destruct (term_parser (cf_eng c) (TS d) None ident) as [q| |] eqn:Q; auto.
        rewrite (G (TS d) eq_refl q Q). auto.
    - discriminate.
    - apply andb_true_iff in N as [N1 N2]. apply IH; auto. constructor; auto.
      intros r q L. apply lookup_In in L. rewrite forallb_forall in N1. apply (N1 _ L).
  Qed.
End NoRnd.

Lemma env_ok_nocut : forall E e gs, env_ok E e gs -> Forall (fun g => no_cut_grammar g = true) gs -> env_nocut e.
Proof.
  induction 1 as [|rules e g gs H IH C P]; intros F; constructor; inversion F; subst; auto.
  - intros r q L. pose proof (compile_rules_lookup _ _ _ _ r C) as X. rewrite L in X.
    destruct X as (t & t' & X1 & X2 & X3). eapply term_parser_nocut; [|exact X3].
    unfold no_cut_grammar in *. rewrite forallb_forall in *.
    assert (G : forall r u, lookup r g = Some u -> no_cut u = true).
    { intros r' u L'. apply lookup_In in L'. match goal with A : forall x, In x g -> _ |- _ => apply (A _ L') end. }
    eapply (alias_body_in (fun z => no_cut z = true)); eauto.
  - apply IH; auto.
Qed.

Lemma parse_rule_rnd : forall c rnd g ps f r s, env_ok (cf_eng c) [p_rules ps] [g] -> no_cut_grammar g = true ->
  parse_rule c f ps r s = parse_rule (with_rnd c rnd) f ps r s.
Proof.
  intros c rnd g ps f r s H N. unfold parse_rule.
  assert (NE : env_nocut [p_rules ps]) by (eapply env_ok_nocut; eauto).
  destruct (lookup r (p_rules ps)) as [q|] eqn:L; auto.
  rewrite (parse_rnd c rnd f [p_rules ps] q empty_scope s 0); auto.
  inversion NE; subst. eauto.
Qed.

Lemma count_ids_ok : ids_ok Z.of_nat.
Proof. split; [intros; lia|intros; lia]. Qed.

(** * Without cut points nothing aborts *)

Lemma no_cut_commits : forall gs t, commits gs t -> Forall (fun g => no_cut_grammar g = true) gs -> no_cut t = false.
Proof.
  induction 1 as [gs t|gs n t C IH|gs t g C IH|gs r gs' t RB C IH]; intros F; simpl; auto.
  - destruct (no_cut t) eqn:N; auto. destruct (forallb (fun kv => no_cut (snd kv)) g) eqn:G; auto.
  - exfalso. assert (A : no_cut t = true /\ Forall (fun g => no_cut_grammar g = true) gs').
    { clear -RB F. induction RB as [g gs r t t' L A|g gs r gs' t L RB IH].
      - split; auto. inversion F as [|? ? G _]; subst. unfold no_cut_grammar in G. rewrite forallb_forall in G.
        eapply (alias_body_in (fun z => no_cut z = true)); eauto.
        + apply lookup_In in L. apply (G _ L).
        + intros r' u L'. apply lookup_In in L'. apply (G _ L').
      - inversion F; subst. auto. }
    destruct A as [A1 A2]. rewrite IH in A1; auto. discriminate.
Qed.

Lemma rule_body_nocut : forall gs r gs' t, rule_body gs r gs' t -> Forall (fun g => no_cut_grammar g = true) gs ->
  no_cut t = true /\ Forall (fun g => no_cut_grammar g = true) gs'.
Proof.
  intros gs r gs' t RB F. induction RB as [g gs r t t' L A|g gs r gs' t L RB IH].
  - split; auto. inversion F as [|? ? G _]; subst. unfold no_cut_grammar in G. rewrite forallb_forall in G.
    eapply (alias_body_in (fun z => no_cut z = true)); eauto.
    + apply lookup_In in L. apply (G _ L).
    + intros r' u L'. apply lookup_In in L'. apply (G _ L').
  - inversion F; subst. auto.
Qed.

Lemma delim_seq_nocut : forall t sep cs ce, no_cut t && no_cut sep = true -> no_cut (delim_seq t sep cs ce) = true.
Proof.
  intros t sep cs ce H. apply andb_true_iff in H as [H1 H2].
  unfold delim_seq, Opt, Any. destruct cs, ce; simpl; rewrite H1, H2; auto.
Qed.

Theorem no_abort : forall E,
  (forall gs vs r t s o, peg E gs vs r t s o -> Forall (fun g => no_cut_grammar g = true) gs -> no_cut t = true -> o <> Abort) /\
  (forall gs vs cut r ts acc s o, peg_seq E gs vs cut r ts acc s o -> Forall (fun g => no_cut_grammar g = true) gs ->
     forallb no_cut ts = true -> cut = false -> o <> Abort) /\
  (forall gs vs r i ts s o, peg_alt E gs vs r i ts s o -> Forall (fun g => no_cut_grammar g = true) gs ->
     forallb no_cut ts = true -> o <> Abort) /\
  (forall gs vs r mn mx t acc s o, peg_rep E gs vs r mn mx t acc s o -> Forall (fun g => no_cut_grammar g = true) gs ->
     no_cut t = true -> o <> Abort).
Proof.
  intros E. apply peg_mutind; intros; try discriminate; try (simpl in *; auto; fail).
  - match goal with A : token _ _ _ _ |- _ => destruct A; discriminate end.
  - match goal with A : token _ _ _ _ |- _ => destruct A; discriminate end.
  - match goal with A : no_cut (TScoped _ _) = true |- _ => simpl in A; apply andb_true_iff in A as [? ?] end.
    auto.
  - match goal with A : rule_body _ _ _ _, B : Forall _ _ |- _ => destruct (rule_body_nocut _ _ _ _ A B) end. auto.
  - match goal with A : no_cut (TDelim _ _ _ _ _) = true |- _ => simpl in A end. auto using delim_seq_nocut.
  - match goal with A : ref_term _ _ |- _ => apply ref_term_nocut in A end. auto.
  - match goal with A : forallb no_cut _ = true |- _ => simpl in A; apply andb_true_iff in A as [? ?] end.
    match goal with A : _ \/ _ |- _ => destruct A as [[A ?]|[A ?]] end; subst; auto.
    match goal with A : commits _ _, B : Forall _ _ |- _ => pose proof (no_cut_commits _ _ A B) end. congruence.
  - subst. discriminate.
  - match goal with A : forallb no_cut _ = true |- _ => simpl in A; apply andb_true_iff in A as [? ?] end. auto.
  - match goal with A : forallb no_cut _ = true |- _ => simpl in A; apply andb_true_iff in A as [? ?] end. auto.
  - match goal with A : forallb no_cut _ = true |- _ => simpl in A; apply andb_true_iff in A as [? ?] end. auto.
  - destruct (Nat.leb mn (length acc)); discriminate.
  - destruct (Nat.leb mn (length acc)); discriminate.
Qed.
