(** Theorems about [Parse] calls, put together from the pieces. *)
From Verif Require Import Base Scanner ScannerSpec ScannerProofs Syntax Engine Resolve Compile Parse PegSpec
  DerivSpec FlowSpec CutSpec LocalSpec FordSpec ApiSpec
  CompileProofs FuelProofs PegProofs PegComplete TopProofs DerivProofs FlowProofs CutProofs DrawProofs LocalProofs FordProofs.
Local Open Scope Z_scope.

(** * C08 *)

Section Leftovers.
  Variable c : config.
  Hypothesis NL : no_leftovers c.

  Definition fine (o : out) : Prop := forall s t, fst (fst o) <> RErr (EUnconsumed s t).
  Definition run_fine (run : parser -> scope -> scanner -> nat -> out) : Prop := forall p sc i k, fine (run p sc i k).

  Lemma npe_fine : forall rule cp i k, fine (RErr (new_parse_error rule cp), i, k).
  Proof. intros rule cp i k s t. unfold new_parse_error. simpl. destruct (cp_valid cp); discriminate. Qed.

  Lemma seq_fine : forall run iscut rule, run_fine run -> forall ps ids sc inp k acc,
    fine (seq_loop c run iscut rule ids ps sc inp k acc).
  Proof.
    intros run iscut rule R. induction ps as [|p ps IH]; intros ids sc inp k acc; simpl; [intros ? ?; discriminate|].
    pose proof (R p sc inp k) as H. destruct (run p sc inp k) as [[[v|e| |] s'] k']; auto.
    - destruct (iscut p).
      + destruct (replace_cut c true sc k') as [[[? ?] ?] ?]. apply IH.
      + apply IH.
    - destruct (is_fatal e); auto. apply npe_fine.
  Qed.

  Lemma quant_fine : forall run rule mn mx p sc pc mc, run_fine run -> forall fuel inp k acc,
    fine (quant_loop run fuel rule mn mx p sc pc mc inp k acc).
  Proof.
    intros run rule mn mx p sc pc mc R. induction fuel as [|f IH]; intros inp k acc; simpl.
    - destruct (_ || _); [intros ? ?; discriminate|]. destruct (Nat.leb _ _); [intros ? ?; discriminate|apply npe_fine].
    - assert (FIN : forall k', fine (if Nat.leb mn (length acc) then (ROk (Node (rule_or_alt rule quantTag) XNone acc), inp, k')
         else (RErr (new_parse_error rule pc), inp, k'))).
      { intros k'. destruct (Nat.leb _ _); [intros ? ?; discriminate|apply npe_fine]. }
      destruct (_ || _); auto. pose proof (R p sc inp k) as H. destruct (run p sc inp k) as [[[v|e| |] s'] k']; auto.
      destruct (not_my_fatal e mc); auto.
  Qed.

  Lemma oneof_fine : forall run rule sc pc mc, run_fine run -> forall ps i inp fur k,
    fine (oneof_loop run rule i ps sc pc mc inp fur k).
  Proof.
    intros run rule sc pc mc R. induction ps as [|p ps IH]; intros i inp fur k; simpl; [apply npe_fine|].
    pose proof (R p sc inp k) as H. destruct (run p sc inp k) as [[[v|e| |] s'] k']; auto; [intros ? ?; discriminate|].
    destruct (not_my_fatal e mc); auto.
  Qed.

  Lemma escape_fine : forall sc inp k cont, fine (cont tt) -> fine (with_escape c sc inp k cont).
  Proof.
    intros sc inp k cont H. unfold with_escape. destruct (cf_esc c) as [e|]; auto.
    destruct (eat_regexp (cf_eng c) (esc_open e) inp 0) as [| |? ? ? i1]; auto; [intros ? ?; discriminate|].
    assert (CL : forall te i2, fine match eat_regexp (cf_eng c) (esc_close e) i2 0 with
      | EatPanic => (RPanic, i2, k) | EatNo => (RErr EOther, i2, k) | EatOk _ _ _ i3 => (ROk te, i3, k) end).
    { intros te i2 s t. destruct (eat_regexp (cf_eng c) (esc_close e) i2 0); discriminate. }
    destruct (esc_fn e sc i1) as [i2 [te|err]]; auto. destruct err; auto; intros ? ?; discriminate.
  Qed.

  Lemma parse_fine : forall f e, run_fine (parse c f e).
  Proof.
    induction f as [|f IH]; intros e p sc inp k; [intros ? ?; discriminate|].
    destruct p; cbn [parse]; try (apply escape_fine).
    - intros ? ?; discriminate.
    - destruct (resolve_link e t) as [[q e']|]; [apply IH|intros ? ?; discriminate].
    - destruct (eat_token (cf_eng c) re inp); [intros ? ?; discriminate|apply npe_fine|intros ? ?; discriminate].
    - destruct (eat_token (cf_eng c) re inp); [intros ? ?; discriminate|apply npe_fine|intros ? ?; discriminate].
    - apply seq_fine; auto.
    - pose proof (IH e p sc inp k) as H. destruct (parse c f e p sc inp k) as [[[v|x| |] s'] k']; auto.
      destruct (delim_node rule a cs ce v); intros ? ?; discriminate.
    - pose proof (IH e p sc inp k) as H. destruct (parse c f e p sc inp k) as [[[v|x| |] s'] k']; auto; intros ? ?; discriminate.
    - destruct (replace_cut c false sc k) as [[[sc' pc] mc] k0]. apply quant_fine; auto.
    - destruct (replace_cut c false sc k) as [[[sc' pc] mc] k0]. apply oneof_fine; auto.
    - assert (GO : forall t (check : tree -> bool), fine match term_parser (cf_eng c) t None ident with
        | COk q => match parse c f [] q sc inp k with
                   | (ROk v, inp', k') => if check v then (ROk v, inp', k') else (RErr (EParse ident), inp', k')
                   | r => r
                   end
        | _ => (RPanic, inp, k) end).
      { intros t check. destruct (term_parser (cf_eng c) t None ident); try (intros ? ?; discriminate).
        pose proof (IH [] a sc inp k) as H. destruct (parse c f [] a sc inp k) as [[[v|x| |] s'] k']; auto.
        destruct (check v); intros ? ?; discriminate. }
      destruct (lookup ident (svals sc)) as [v|].
      + destruct (term_from_ref_val v); [apply GO|intros ? ?; discriminate].
      + destruct default as [d|]; [exact (GO (TS d) (fun _ => true))|intros ? ?; discriminate].
    - destruct (lookup s (cf_ext c)) as [fn|] eqn:L; [|apply npe_fine].
      pose proof (fun r t => NL s fn sc inp r t L) as H. destruct (fn sc inp) as [i2 [te|err]]; intros s0 t0; simpl in *; try discriminate.
      intros Q. inversion Q; subst. eapply H; eauto.
    - apply IH.
    - apply IH.
  Qed.
End Leftovers.

Theorem full_consumption : forall c f ps r s v s', parse_rule c f ps r s = (ROk v, s') ->
  matches c f ps r s v s' /\ shows s' [].
Proof.
  intros c f ps r s v s' H. unfold parse_rule in H. destruct (lookup r (p_rules ps)) as [p|] eqn:L; [|discriminate].
  destruct (parse c f [p_rules ps] p empty_scope s 0) as [[[w|e| |] s1] k1] eqn:Q; try discriminate.
  destruct (sstring s1) as [[|b t]|] eqn:S; inversion H; subst. split; [exists p, k1; auto|exact S].
Qed.

Theorem unconsumed : forall c f ps r s residue v s', no_leftovers c ->
  parse_rule c f ps r s = (RErr (EUnconsumed residue v), s') ->
  residue = s' /\ matches c f ps r s v s' /\ exists t, t <> [] /\ shows s' t.
Proof.
  intros c f ps r s residue v s' NL H. unfold parse_rule in H. destruct (lookup r (p_rules ps)) as [p|] eqn:L; [|discriminate].
  pose proof (parse_fine c NL f [p_rules ps] p empty_scope s 0%nat) as F.
  destruct (parse c f [p_rules ps] p empty_scope s 0) as [[[w|e| |] s1] k1] eqn:Q; try discriminate.
  - destruct (sstring s1) as [[|b t]|] eqn:S; inversion H; subst. split; auto. split; [exists p, k1; auto|].
    exists (b :: t). split; [discriminate|exact S].
  - inversion H; subst. exfalso. eapply F; reflexivity.
Qed.

Theorem matched_outcome : forall c f ps r s v s' t, matches c f ps r s v s' -> shows s' t ->
  parse_rule c f ps r s = (match t with [] => ROk v | _ => RErr (EUnconsumed s' v) end, s').
Proof.
  intros c f ps r s v s' t (p & k & L & Q) S. unfold parse_rule. rewrite L, Q. unfold shows in S. rewrite S.
  destruct t; auto.
Qed.

(** A match consumes a first part of the text. *)
Lemma forward_shows : forall s s' x, forward s s' -> shows s x -> exists eaten rest, x = eaten ++ rest /\ shows s' rest.
Proof.
  intros s s' x (o & i & n & j & W1 & L & W2) S.
  pose proof (eat_splits s o i n j W1 L) as X. unfold eat in X.
  destruct X as (X1 & X2 & te & tr & X3 & X4 & X5 & X6). unfold shows in *. rewrite X5 in S.
  exists te, tr. split; [congruence|]. rewrite <- X4. clear X1 X2 X3 X4 X5 X6.
  assert (s' = skip s (Z.of_nat j)); [|subst; auto].
  destruct s' as [so sa sl]. destruct W1 as (A1 & A2 & A3 & A4), W2 as (B1 & B2 & B3 & B4). unfold skip. simpl in *. f_equal; try congruence; lia.
Qed.

Theorem residue_suffix : forall c f ps r s residue v s' x, tame c -> no_leftovers c -> in_range s -> shows s x ->
  parse_rule c f ps r s = (RErr (EUnconsumed residue v), s') ->
  exists eaten rest, x = eaten ++ rest /\ rest <> [] /\ shows residue rest.
Proof.
  intros c f ps r s residue v s' x T NL I S H.
  pose proof (parse_rule_forward _ _ _ _ _ _ _ T I H ltac:(discriminate) ltac:(discriminate)) as F.
  destruct (unconsumed _ _ _ _ _ _ _ _ NL H) as (-> & _ & t & NE & ST).
  destruct (forward_shows _ _ _ F S) as (eaten & rest & -> & S'). unfold shows in *. rewrite ST in S'. inversion S'; subst. eauto.
Qed.

(** * C12, C10, C11 *)

Section Reading.
  Variable c : config.
  Hypothesis no_escape : cf_esc c = None.
  Notation E := (cf_eng c).
  Variables (g : grammar) (ps : parsers).
  Hypothesis comp : compile E g = COk ps.
  Hypothesis rd : readable g.

  (** The tree and rest of a successful match, whether or not text remains. *)
  Definition result (o : res * scanner) (v : tree) (s' : scanner) : Prop :=
    o = (ROk v, s') \/ o = (RErr (EUnconsumed s' v), s').

  Lemma result_means : forall f r s v s', drawn_ok (cf_rnd c) (draws c f ps r s) ->
    result (parse_rule c f ps r s) v s' -> means E g r s (Succ v s').
  Proof.
    intros f r s v s' D R. pose proof (run_sound_drawn c no_escape g ps (readable_env _ _ _ comp rd) f r s D) as X.
    destruct R as [R|R]; rewrite R in X; apply X.
  Qed.

  Theorem result_derives : forall f r s v s', drawn_ok (cf_rnd c) (draws c f ps r s) ->
    result (parse_rule c f ps r s) v s' -> rule_derives E g r s v s'.
  Proof.
    intros f r s v s' D R. apply result_means in R; auto. eapply (proj1 (peg_derives E)); [exact R|reflexivity].
  Qed.

  Theorem result_ordered : forall f r s v s', engine_ok E -> in_range s ->
    patterns_grammar (participates E) g -> no_look_grammar g = true ->
    drawn_ok (cf_rnd c) (draws c f ps r s) -> result (parse_rule c f ps r s) v s' ->
    covers_ordered s s' (leaves v).
  Proof. intros. eapply derives_ordered; eauto. eapply result_derives; eauto. Qed.

  Theorem result_lossless : forall f r s v s', engine_ok E -> in_range s ->
    no_groups_grammar E g -> no_look_grammar g = true ->
    drawn_ok (cf_rnd c) (draws c f ps r s) -> result (parse_rule c f ps r s) v s' ->
    exists txts rest, Forall2 shows (leaves v) txts /\ shows s (concat txts ++ rest) /\ shows s' rest.
  Proof.
    intros. eapply derives_exact; eauto.
    - eapply result_derives; eauto.
    - apply no_groups_grammar_patterns; auto.
  Qed.

  Theorem result_delim : forall f r t sep a cs ce s v s', lookup r g = Some (TDelim t sep a cs ce) ->
    drawn_ok (cf_rnd c) (draws c f ps r s) -> result (parse_rule c f ps r s) v s' ->
    exists items, listing E [g] t sep cs ce s items s' /\ delim_result r a items v.
  Proof.
    intros f r t sep a cs ce s v s' L D R. apply result_derives in R; auto. unfold rule_derives in R.
    inversion R as [| | | | |? ? ? ? gs' u ? ? ? RB DD| | | | | | |]; subst.
    apply rule_body_one in RB as (-> & u' & L' & AB).
    assert (u' = TDelim t sep a cs ce) by congruence. subst. inversion AB; subst. eapply delim_listing; eauto.
  Qed.
End Reading.

(** * C13 *)

Section Plain.
  Variables (E : engine) (g : grammar) (ps : parsers).
  Hypothesis comp : compile E g = COk ps.
  Hypothesis rd : readable g.
  Hypothesis OK : engine_ok E.
  Hypothesis hook : hooked_grammar false g = true.
  Hypothesis uncut : no_cut_grammar g = true.
  Notation env := (readable_env E g ps comp rd).

  Lemma uncut_rnd : forall rnd rnd' f r s,
    parse_rule (plain_call E rnd) f ps r s = parse_rule (plain_call E rnd') f ps r s.
  Proof. intros. apply (parse_rule_rnd (plain_call E rnd) rnd' g ps f r s env uncut). Qed.

  Lemma uncut_sound : forall rnd f r s,
    match parse_rule (plain_call E rnd) f ps r s with
    | (ROk v, s') => means E g r s (Succ v s') /\ shows s' []
    | (RErr (EUnconsumed s1 v), s') => s1 = s' /\ means E g r s (Succ v s') /\ exists t, shows s' t /\ t <> []
    | (RErr e, _) => is_plain_err e /\ means E g r s Fail
    | _ => True
    end.
  Proof.
    intros rnd f r s. rewrite (uncut_rnd rnd rnd0).
    pose proof (run_sound (plain_call E rnd0) eq_refl rnd0_ok g ps env f r s) as X.
    destruct (parse_rule (plain_call E rnd0) f ps r s) as [[v|e| |] s']; auto.
    assert (NA : ~ means E g r s Abort).
    { intros M. eapply (proj1 (no_abort E)); eauto. }
    destruct e; auto; destruct X as [X|[_ X]]; auto; contradiction.
  Qed.

  Lemma uncut_complete : forall r s o, means E g r s o ->
    exists f0, forall f rnd, (f0 <= f)%nat ->
    match o with
    | Succ v s' =>
        (shows s' [] -> parse_rule (plain_call E rnd) f ps r s = (ROk v, s')) /\
        (forall t, t <> [] -> shows s' t -> parse_rule (plain_call E rnd) f ps r s = (RErr (EUnconsumed s' v), s'))
    | _ => exists e s', parse_rule (plain_call E rnd) f ps r s = (RErr e, s') /\ is_plain_err e
    end.
  Proof.
    intros r s o M.
    destruct (run_complete (plain_call E rnd0) eq_refl rnd0_ok g ps env false ltac:(discriminate) hook r s o M) as (f0 & RC).
    exists f0. intros f rnd L. rewrite (uncut_rnd rnd rnd0). specialize (RC f L).
    destruct o; auto. exfalso. eapply (proj1 (no_abort E)); eauto.
  Qed.

  Theorem uncut_peg : forall rnd r s,
    (forall v s', shows s' [] ->
       ((exists f, parse_rule (plain_call E rnd) f ps r s = (ROk v, s')) <-> means E g r s (Succ v s'))) /\
    (forall v s' t, t <> [] -> shows s' t ->
       ((exists f, parse_rule (plain_call E rnd) f ps r s = (RErr (EUnconsumed s' v), s')) <-> means E g r s (Succ v s'))) /\
    ((exists f rule s', parse_rule (plain_call E rnd) f ps r s = (RErr (EParse rule), s')) <-> means E g r s Fail) /\
    (forall f s' e, parse_rule (plain_call E rnd) f ps r s = (RErr e, s') ->
       (exists rule, e = EParse rule) \/ exists t, e = EUnconsumed s' t).
  Proof.
    intros rnd r s. split; [|split; [|split]].
    - intros v s' S. split.
      + intros [f Q]. pose proof (uncut_sound rnd f r s) as X. rewrite Q in X. apply X.
      + intros M. destruct (uncut_complete _ _ _ M) as (f0 & C). exists f0. apply C; auto.
    - intros v s' t NE S. split.
      + intros [f Q]. pose proof (uncut_sound rnd f r s) as X. rewrite Q in X. apply X.
      + intros M. destruct (uncut_complete _ _ _ M) as (f0 & C). exists f0. eapply C; eauto.
    - split.
      + intros (f & rule & s' & Q). pose proof (uncut_sound rnd f r s) as X. rewrite Q in X. apply X.
      + intros M. destruct (uncut_complete _ _ _ M) as (f0 & C). destruct (C f0 rnd (le_n _)) as (e & s' & Q & PE).
        destruct e; try contradiction. eauto.
    - intros f s' e Q. pose proof (uncut_sound rnd f r s) as X. rewrite Q in X.
      destruct e; try (destruct X as [X _]; contradiction); eauto. destruct X as (-> & _). eauto.
  Qed.
End Plain.

Lemma textbook_plain : forall E t, textbook E t -> no_stack t = true /\ plain t = true /\ no_cut t = true /\ hooked false t = true.
Proof.
  intros E. induction t using term_ind'; simpl; intros T; auto; try contradiction;
    try (apply IHt; auto; fail).
  - assert (X : Forall (fun t => no_stack t = true /\ plain t = true /\ no_cut t = true /\ hooked false t = true) ts).
    { revert T. induction H; intros T; constructor; destruct T; auto. }
    repeat split; apply forallb_forall; rewrite Forall_forall in X; intros x I; apply X; auto.
  - assert (X : Forall (fun t => no_stack t = true /\ plain t = true /\ no_cut t = true /\ hooked false t = true) ts).
    { revert T. induction H; intros T; constructor; destruct T; auto. }
    repeat split; apply forallb_forall; rewrite Forall_forall in X; intros x I; apply X; auto.
  - destruct T as [T1 T2]. destruct (IHt1 T1) as (A1 & A2 & A3 & A4), (IHt2 T2) as (B1 & B2 & B3 & B4).
    rewrite A1, A2, A3, A4, B1, B2, B3, B4. auto.
Qed.

(** Rules are aliases or do not end in a bare reference. *)
Definition sound_rules (g : grammar) : Prop :=
  forall r t, lookup r g = Some t -> is_alias t = true \/ headrule t = false.

Lemma textbook_all : forall E g, NoDup (keys g) -> textbook_grammar E g -> sound_rules g ->
  readable g /\ no_cut_grammar g = true /\ hooked_grammar false g = true.
Proof.
  intros E g ND [T _] SR.
  assert (X : forall kv, In kv g -> no_stack (snd kv) = true /\ plain (snd kv) = true /\ no_cut (snd kv) = true /\ hooked false (snd kv) = true).
  { intros [k t] I. apply textbook_plain with E. apply (T k). apply In_lookup; auto. }
  split; [split; apply forallb_forall; intros kv I; apply X; auto|]. split; apply forallb_forall; intros kv I.
  - apply X; auto.
  - apply andb_true_iff. split; [apply X; auto|]. destruct kv as [k t]. simpl.
    destruct (SR k t (In_lookup _ _ _ ND I)) as [H|H]; rewrite H; auto. apply orb_true_r.
Qed.

Theorem uncut_textbook : forall E g ps rnd, engine_ok E -> NoDup (keys g) -> textbook_grammar E g -> sound_rules g ->
  compile E g = COk ps -> forall r s x, in_range s -> shows s x ->
  ((exists f v s', parse_rule (plain_call E rnd) f ps r s = (ROk v, s')) <-> ford E g (TRule r) x (Some [])) /\
  (forall rest, rest <> [] ->
     ((exists f v residue s', parse_rule (plain_call E rnd) f ps r s = (RErr (EUnconsumed residue v), s') /\ shows residue rest)
       <-> ford E g (TRule r) x (Some rest))) /\
  ((exists f rule s', parse_rule (plain_call E rnd) f ps r s = (RErr (EParse rule), s')) <-> ford E g (TRule r) x None).
Proof.
  intros E g ps rnd OK ND TB SR C r s x I S.
  destruct (textbook_all E g ND TB SR) as (RD & NC & HK).
  destruct (means_ford E g OK TB r s x I S) as (F1 & F2 & F3).
  destruct (uncut_peg E g ps C RD HK NC rnd r s) as (U1 & U2 & U3 & _).
  assert (U0 := uncut_sound E g ps C RD NC rnd).
  split; [|split].
  - rewrite <- F1. split.
    + intros (f & v & s' & Q). pose proof (U0 f r s) as X. rewrite Q in X. exists v, s'. auto.
    + intros (v & s' & M & S'). apply (U1 v s' S') in M as [f Q]. eauto.
  - intros rest NE. rewrite <- F1. split.
    + intros (f & v & residue & s' & Q & S'). pose proof (U0 f r s) as X. rewrite Q in X. destruct X as (-> & M & _). eauto.
    + intros (v & s' & M & S'). apply (U2 v s' rest NE S') in M as [f Q]. eauto 10.
  - rewrite <- F2. exact U3.
Qed.

(** * C18 *)

Lemma hooked_erase : forall refs t, hooked refs t = true ->
  hooked refs (erase t) = true /\ headrule (erase t) = headrule t /\ is_alias (erase t) = is_alias t.
Proof.
  intros refs. induction t using term_ind'; simpl; intros H'; auto;
    repeat match goal with H : _ && _ = true |- _ => apply andb_true_iff in H as [? ?] end;
    try (split; [|auto]; rewrite forallb_forall in *; intros x I; apply in_map_iff in I as (y & <- & I);
         rewrite Forall_forall in H; apply H; auto; fail).
  - split; auto. apply andb_true_iff. split; [apply IHt1; auto|apply IHt2; auto].
  - split; auto. apply IHt; auto.
  - split; auto. apply IHt; auto.
  - destruct (IHt H') as (A & B & C). auto.
  - destruct (IHt ltac:(auto)) as (A & B & C). split; [|auto]. rewrite A. simpl.
    rewrite forallb_forall in *. intros x I; apply in_map_iff in I as (y & <- & I). simpl.
    rewrite Forall_forall in H. apply H; auto.
  - destruct (IHt ltac:(auto)) as (A & B & C). split; auto. rewrite B. 
    match goal with H : negb (headrule t) = true |- _ => apply negb_true_iff in H; rewrite H end. split; auto.
    rewrite C. destruct t; auto; discriminate.
Qed.

Lemma hooked_grammar_erase : forall refs g, hooked_grammar refs g = true -> hooked_grammar refs (erase_grammar g) = true.
Proof.
  intros refs g H. unfold hooked_grammar, erase_grammar in *. rewrite forallb_forall in *. intros x I.
  apply in_map_iff in I as (y & <- & I). specialize (H _ I). simpl. apply andb_true_iff in H as [H1 H2].
  destruct (hooked_erase _ _ H1) as (A & B & C). rewrite A, B, C. auto.
Qed.

Lemma plain_erase : forall refs t, hooked refs t = true -> plain t = true -> plain (erase t) = true.
Proof.
  intros refs. induction t using term_ind'; simpl; intros HK P; auto;
    repeat match goal with H : _ && _ = true |- _ => apply andb_true_iff in H as [? ?] end;
    try (rewrite forallb_forall in *; intros x I; apply in_map_iff in I as (y & <- & I);
         rewrite Forall_forall in H; apply H; auto; fail).
  - apply andb_true_iff. split; auto.
  - apply andb_true_iff. split; auto. rewrite forallb_forall in *. intros x I; apply in_map_iff in I as (y & <- & I). simpl.
    rewrite Forall_forall in H.
    match goal with A : forall x, In x g -> hooked refs (snd x) = true, B : forall x, In x g -> plain (snd x) && _ = true |- _ =>
      specialize (A _ I); specialize (B _ I); apply andb_true_iff in B as [B1 B2];
      destruct (hooked_erase _ _ A) as (_ & -> & ->); rewrite (H _ I A B1); auto end.
  - auto.
Qed.

Lemma no_stack_erase : forall t, no_stack t = true -> no_stack (erase t) = true.
Proof.
  induction t using term_ind'; simpl; intros HK; auto; try discriminate;
    repeat match goal with H : _ && _ = true |- _ => apply andb_true_iff in H as [? ?] end;
    try (rewrite forallb_forall in *; intros x I; apply in_map_iff in I as (y & <- & I);
         rewrite Forall_forall in H; apply H; auto; fail).
  - apply andb_true_iff. split; auto.
  - apply andb_true_iff. split; auto. rewrite forallb_forall in *. intros x I; apply in_map_iff in I as (y & <- & I). simpl.
    rewrite Forall_forall in H. auto.
Qed.

Lemma readable_erase : forall refs g, hooked_grammar refs g = true -> readable g -> readable (erase_grammar g).
Proof.
  intros refs g H [A B]. unfold readable, no_stack_grammar, plain_grammar, hooked_grammar, erase_grammar in *.
  rewrite forallb_forall in A, B, H. split; apply forallb_forall; intros x I; apply in_map_iff in I as (y & <- & I); simpl.
  - apply no_stack_erase. auto.
  - specialize (H _ I). apply andb_true_iff in H as [H _]. eapply plain_erase; eauto.
Qed.

Theorem cuts_prune : forall c g ps ps' refs f r s, cf_esc c = None ->
  compile (cf_eng c) g = COk ps -> compile (cf_eng c) (erase_grammar g) = COk ps' ->
  readable g -> tidy_grammar g = true -> hooked_grammar refs g = true ->
  (refs = true -> forall x, re_valid (cf_eng c) (anchor ++ group (quote_meta x)) = true) ->
  drawn_ok (cf_rnd c) (draws c f ps r s) ->
  exists f0, forall f' rnd, (f0 <= f')%nat ->
  match parse_rule c f ps r s with
  | (ROk v, s') => parse_rule (plain_call (cf_eng c) rnd) f' ps' r s = (ROk v, s')
  | (RErr (EUnconsumed s1 v), s') => parse_rule (plain_call (cf_eng c) rnd) f' ps' r s = (RErr (EUnconsumed s' v), s')
  | (RErr (EParse _), _) => exists rule s', parse_rule (plain_call (cf_eng c) rnd) f' ps' r s = (RErr (EParse rule), s')
  | _ => True
  end.
Proof.
  intros c g ps ps' refs f r s NE C1 C2 RD TD HK LT D.
  pose proof (run_sound_drawn c NE g ps (readable_env _ _ _ C1 RD) f r s D) as X.
  pose proof (readable_erase _ _ HK RD) as RD'.
  pose proof (readable_env _ _ _ C2 RD') as EV.
  assert (K : forall o, means (cf_eng c) g r s o -> o <> Abort ->
    exists f0, forall f' rnd, (f0 <= f')%nat ->
    match o with
    | Succ v s' =>
        (shows s' [] -> parse_rule (plain_call (cf_eng c) rnd) f' ps' r s = (ROk v, s')) /\
        (forall t, t <> [] -> shows s' t -> parse_rule (plain_call (cf_eng c) rnd) f' ps' r s = (RErr (EUnconsumed s' v), s'))
    | _ => exists e s', parse_rule (plain_call (cf_eng c) rnd) f' ps' r s = (RErr e, s') /\ is_plain_err e
    end).
  { intros o M NA. pose proof (means_erase _ _ _ _ _ TD M NA) as M'.
    destruct (run_complete (plain_call (cf_eng c) rnd0) eq_refl rnd0_ok (erase_grammar g) ps' EV refs LT
                (hooked_grammar_erase _ _ HK) r s o M') as (f0 & RC).
    exists f0. intros f' rnd L. specialize (RC f' L).
    assert (Q : parse_rule (plain_call (cf_eng c) rnd) f' ps' r s = parse_rule (plain_call (cf_eng c) rnd0) f' ps' r s)
      by (apply (parse_rule_rnd (plain_call (cf_eng c) rnd) rnd0 (erase_grammar g) ps'); auto; apply erase_grammar_nocut).
    rewrite Q. destruct o; auto. congruence. }
  destruct (parse_rule c f ps r s) as [[v|e| |] s'].
  - destruct X as [M S]. destruct (K _ M ltac:(discriminate)) as (f0 & KK). exists f0. intros f' rnd L. apply KK; auto.
  - destruct e as [rl|rl cp| |s1 v| ]; try (exists O; intros; exact Logic.I).
    + destruct X as [[_ M]|[X _]]; [|contradiction]. destruct (K _ M ltac:(discriminate)) as (f0 & KK).
      exists f0. intros f' rnd L. destruct (KK f' rnd L) as (e & s2 & Q & PE). destruct e; try contradiction. eauto.
    + destruct X as (-> & M & t & S & NT). destruct (K _ M ltac:(discriminate)) as (f0 & KK).
      exists f0. intros f' rnd L. eapply KK; eauto.
  - exists O. auto.
  - exists O. auto.
Qed.

(** * C19 *)

Theorem cut_commits_parse : forall E g ps refs r s gs vs rl pre x mid y post s0 vs1 s1 v s2 vs2 s3,
  compile E g = COk ps -> readable g -> hooked_grammar refs g = true ->
  (refs = true -> forall x, re_valid E (anchor ++ group (quote_meta x)) = true) ->
  reaches E [g] [] "" (TRule r) s gs vs rl (TSeq (pre ++ x :: mid ++ y :: post)) s0 ->
  elements E gs vs pre s0 vs1 s1 -> peg E gs vs1 "" x s1 (Succ v s2) -> commits gs x ->
  elements E gs (bind vs1 (label x) v) mid s2 vs2 s3 -> peg E gs vs2 "" y s3 Fail ->
  exists f0 n, forall rnd f, drawn_ok rnd n -> unreserved rnd n -> (f0 <= f)%nat ->
    draws (plain_call E rnd) f ps r s = n /\
    exists rule cp s', parse_rule (plain_call E rnd) f ps r s = (RErr (EFatal rule cp), s').
Proof.
  intros E g ps refs r s gs vs rl pre x mid y post s0 vs1 s1 v s2 vs2 s3 C RD HK LT RE EL PX CM EL2 PY.
  assert (M : means E g r s Abort).
  { unfold means. eapply abort_propagates; [exact RE|]. eapply committed_aborts; eauto. }
  destruct (run_complete_drawn E g ps (readable_env _ _ _ C RD) refs LT HK r s Abort M) as (f0 & n & RC).
  { intros; discriminate. }
  exists f0, n. intros rnd f D U L. destruct (RC rnd f D U L) as (DQ & e & s' & Q & FE). split; auto.
  destruct e; try contradiction. eauto.
Qed.
