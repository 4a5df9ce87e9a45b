(** Repeating an empty match never ends. *)
From Verif Require Import Base Scanner ScannerSpec ScannerProofs Syntax Engine Resolve Compile Parse PegSpec FlowSpec CompileProofs PegProofs FuelProofs PegComplete TopProofs
  FlowProofs LocalSpec LocalProofs CutSpec DrawProofs HangSpec.
Local Open Scope nat_scope.

Section Hang.
  Variable c : config.
  Hypothesis no_escape : cf_esc c = None.
  Hypothesis ids : ids_ok (cf_rnd c).
  Notation E := (cf_eng c).
  Variables (g : grammar) (ps : parsers).
  Hypothesis env : env_ok E [p_rules ps] [g].
  Variable refs : bool.
  Hypothesis lits : refs = true -> forall x, re_valid E (anchor ++ group (quote_meta x)) = true.
  Hypothesis hook : hooked_grammar refs g = true.

  (** A run of a term that has an outcome gives it, or runs out of fuel. *)
  Lemma run_body : forall t q s v s', comp E [g] "" t q -> plain t = true -> hooked refs t = true -> peg E [g] [] "" t s (Succ v s') ->
    forall sc k, svals sc = [] -> cut_ok (cf_rnd c) k (scut sc) -> forall f,
    out_res (parse c f [p_rules ps] (reg q) sc s k) = RFuel \/
    exists k', k <= k' /\ parse c f [p_rules ps] (reg q) sc s k = (ROk v, s', k').
  Proof.
    intros t q s v s' HC HP HK P sc k V CO f.
    destruct (proj1 (parse_complete c no_escape ids refs lits) _ _ _ _ _ _ P [p_rules ps] q sc k env (hooked_all g refs hook) HC HP HK V CO) as (f0 & Y).
    destruct (parse c f [p_rules ps] (reg q) sc s k) as [[r s1] k1] eqn:R.
    destruct r as [v1|er| |]; try (left; reflexivity); right.
    all: assert (F : finished (parse c f [p_rules ps] (reg q) sc s k)) by (rewrite R; discriminate);
      pose proof (parse_mono c f (Nat.max f f0) [p_rules ps] (Nat.le_max_l _ _) (reg q) sc s k F) as M;
      pose proof (more_fuel c f0 (Nat.max f f0) _ _ _ _ _ _ _ _ (Nat.le_max_r _ _) Y) as Y'; rewrite M, R in Y'; simpl in Y'; try contradiction.
    destruct Y' as (-> & -> & K). exists k1. auto.
  Qed.

  Lemma loop_hangs : forall t q, comp E [g] "" t q -> plain t = true -> hooked refs t = true ->
    forall f rule mn n s, goes_round E g t s -> forall sc pc mc k acc, svals sc = [] -> cut_ok (cf_rnd c) k (scut sc) ->
    out_res (quant_loop (parse c f [p_rules ps]) n rule mn 0 (reg q) sc pc mc s k acc) = RFuel.
  Proof.
    intros t q HC HP HK f rule mn. induction n as [|n IH]; intros s G sc pc mc k acc V CO; cbn [quant_loop]; simpl; [reflexivity|].
    destruct G as [s v P|s v s1 P G].
    - destruct (run_body t q s v s HC HP HK P sc k V CO f) as [R|(k' & K & R)].
      + destruct (parse c f [p_rules ps] (reg q) sc s k) as [[r s1] k1]. unfold out_res in R; simpl in R. subst. reflexivity.
      + rewrite R. apply IH; auto; [apply (gr_here E g t s v P)|]. eapply cut_ok_mono; eauto.
    - destruct (run_body t q s v s1 HC HP HK P sc k V CO f) as [R|(k' & K & R)].
      + destruct (parse c f [p_rules ps] (reg q) sc s k) as [[r s2] k1]. unfold out_res in R; simpl in R. subst. reflexivity.
      + rewrite R. apply IH; auto. eapply cut_ok_mono; eauto.
  Qed.

  Lemma rule_hangs : forall r t, repeats g r t -> forall s, goes_round E g t s -> forall f, fst (parse_rule c f ps r s) = RFuel.
  Proof.
    intros r t (u & mn & L & A) s G f.
    assert (RB : rule_body [g] r [g] (TQuant t mn 0)) by (eapply rb_here; eauto).
    destruct (rule_body_link c refs _ _ _ _ _ env (hooked_all g refs hook) RB) as (q & e' & RL & _ & _ & HC & HP & HK & _).
    simpl in RL. unfold parse_rule. destruct (lookup r (p_rules ps)) as [q'|]; [|discriminate]. inversion RL; subst q' e'; clear RL.
    unfold comp in HC. simpl in HC. apply cbind_ok in HC as (q0 & HC & X). inversion X; subst. simpl in HP, HK.
    destruct f as [|f]; [reflexivity|]. cbn [parse]. unfold with_escape. rewrite no_escape.
    destruct (replace_cut c false empty_scope 0) as [[[sc pc] mc] k] eqn:RC.
    assert (CE : cut_ok (cf_rnd c) 0 (scut empty_scope)) by (left; reflexivity).
    destruct (replace_cut_spec c ids _ _ _ _ _ _ CE RC) as (V & C1 & C2 & K1 & K2).
    assert (CO : cut_ok (cf_rnd c) k (scut sc)) by (rewrite C1; auto).
    pose proof (loop_hangs t q0 HC HP HK f r mn f s G sc pc mc k [] V CO) as H.
    match goal with H : out_res ?x = _ |- context [?y] => replace y with x by reflexivity; destruct x as [[r1 s1] k1] end.
    unfold out_res in H; simpl in H. subst. reflexivity.
  Qed.
End Hang.

Theorem repetition_hangs : forall c g ps refs, cf_esc c = None -> readable g -> hooked_grammar refs g = true ->
  (refs = true -> forall x, re_valid (cf_eng c) (anchor ++ group (quote_meta x)) = true) ->
  compile (cf_eng c) g = COk ps -> forall r t s, repeats g r t -> goes_round (cf_eng c) g t s ->
  forall f, drawn_ok (cf_rnd c) (draws c f ps r s) -> fst (parse_rule c f ps r s) = RFuel.
Proof.
  intros c g ps refs NE RD HK LI C r t s RP G f D.
  destruct (parse_rule_agree c (continued (cf_rnd c) (draws c f ps r s)) (draws c f ps r s)
              (continued_agree _ _) f ps r s (le_n _)) as [Q _].
  rewrite <- Q.
  apply (rule_hangs (with_rnd c (continued (cf_rnd c) (draws c f ps r s))) NE (continued_ok _ _ D) g ps (readable_env _ _ _ C RD) refs LI HK r t RP s G).
Qed.

(** The repetition of an optional literal: on every input. *)
Lemma optional_round : forall E g x, engine_ok E -> lookup WrapRE g = None -> re_lit_ok E x = true -> x <> [] ->
  forall n s t, length t <= n -> in_range s -> shows s t -> goes_round E g (TQuant (TS x) 0 1) s.
Proof.
  intros E g x OK NW LO NX. induction n as [|n IH]; intros s t L R S.
  all: destruct (literal_eat E x s t OK LO R S) as [A B]; pose proof (eat_token_spec E (group (quote_meta x)) s) as T.
  all: assert (TP : token_pattern (wrap_of [g]) x (group (quote_meta x)) (group (quote_meta x))) by (simpl; rewrite NW; reflexivity).
  all: destruct (has_prefix x t) eqn:HP; [apply has_prefix_iff in HP as [r ->]|].
  - destruct x; [congruence|simpl in L; lia].
  - assert (N : ~ exists r, t = x ++ r) by (intros X; apply has_prefix_iff in X; congruence).
    rewrite (B N) in T. eapply gr_here. apply P_quant. apply (PR_stop E [g] [] "" 0 1 (TS x) [] s); [right; simpl; lia|].
    eapply P_lit; eauto.
  - destruct (A r eq_refl) as (l & s' & Q & S1 & S2 & F & _). rewrite Q in T.
    eapply gr_next; [apply P_quant; eapply PR_more; [right; simpl; lia|eapply P_lit; eauto|]|].
    + apply (PR_full E [g] [] "" 0 1 (TS x) ([] ++ [Leaf l]) s'). intros [X|X]; simpl in X; lia.
    + apply (IH s' r); auto; [|eapply forward_range; eauto]. rewrite app_length in L. destruct x; [congruence|simpl in L; lia].
  - assert (N : ~ exists r, t = x ++ r) by (intros X; apply has_prefix_iff in X; congruence).
    rewrite (B N) in T. eapply gr_here. apply P_quant. apply (PR_stop E [g] [] "" 0 1 (TS x) [] s); [right; simpl; lia|].
    eapply P_lit; eauto.
Qed.
