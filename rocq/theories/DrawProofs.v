(** A parse only looks at the random numbers it draws, so the theorems about parsing need
    distinctness of those only. *)
From Verif Require Import Base Scanner ScannerSpec Syntax Engine Resolve Compile Parse PegSpec CutSpec
  CompileProofs FuelProofs PegProofs PegComplete TopProofs CutProofs.
Local Open Scope Z_scope.

Section Agree.
  Variable c : config.
  Variable rnd2 : nat -> Z.
  Variable K : nat.
  Notation c2 := (with_rnd c rnd2).
  Hypothesis agree : forall j, (j < K)%nat -> rnd2 j = cf_rnd c j.

  Definition erun (run1 run2 : parser -> scope -> scanner -> nat -> out) : Prop :=
    forall p sc inp k, (snd (run1 p sc inp k) <= K)%nat -> run2 p sc inp k = run1 p sc inp k.

  Lemma replace_cut_e : forall b sc k, (snd (replace_cut c b sc k) <= K)%nat ->
    replace_cut c2 b sc k = replace_cut c b sc k.
  Proof.
    intros b sc k L. unfold replace_cut in *. destruct (cp_valid (scut sc) || b); auto. simpl in *.
    rewrite agree by lia. auto.
  Qed.

  Lemma seq_loop_e : forall run1 run2 iscut rule, erun run1 run2 -> grows run1 -> forall ps ids sc inp k acc,
    (snd (seq_loop c run1 iscut rule ids ps sc inp k acc) <= K)%nat ->
    seq_loop c2 run2 iscut rule ids ps sc inp k acc = seq_loop c run1 iscut rule ids ps sc inp k acc.
  Proof.
    intros run1 run2 iscut rule R G. induction ps as [|p ps IH]; intros ids sc inp k acc L; [reflexivity|].
    simpl in L |- *. pose proof (R p sc inp k) as RR.
    destruct (run1 p sc inp k) as [[[v|e| |] s'] k'] eqn:Q1.
    - destruct (iscut p) eqn:IC.
      + destruct (replace_cut c true sc k') as [[[sa q] m] kk] eqn:RC. pose proof (replace_cut_grows _ _ _ _ _ _ _ _ RC) as GG.
        assert (LK : (kk <= K)%nat) by (etransitivity; [|exact L]; apply seq_loop_grows; auto).
        rewrite RR by (simpl; lia). rewrite replace_cut_e; rewrite RC; simpl; auto.
      + assert (LK : (k' <= K)%nat) by (etransitivity; [|exact L]; apply seq_loop_grows; auto).
        rewrite RR by auto. auto.
    - rewrite RR by (destruct (is_fatal e); auto). auto.
    - rewrite RR; auto.
    - rewrite RR; auto.
  Qed.

  Lemma quant_loop_e : forall run1 run2 rule mn mx p sc pc mc, erun run1 run2 -> grows run1 -> forall fuel inp k acc,
    (snd (quant_loop run1 fuel rule mn mx p sc pc mc inp k acc) <= K)%nat ->
    quant_loop run2 fuel rule mn mx p sc pc mc inp k acc = quant_loop run1 fuel rule mn mx p sc pc mc inp k acc.
  Proof.
    intros run1 run2 rule mn mx p sc pc mc R G. induction fuel as [|f IH]; intros inp k acc L; [reflexivity|].
    simpl in L |- *. destruct (_ || _); auto. pose proof (R p sc inp k) as RR.
    destruct (run1 p sc inp k) as [[[v|e| |] s'] k'] eqn:Q1.
    - assert (LK : (k' <= K)%nat) by (etransitivity; [|exact L]; apply quant_loop_grows; auto).
      rewrite RR by auto. auto.
    - rewrite RR; auto. destruct (not_my_fatal e mc); simpl in L; auto. destruct (Nat.leb mn (length acc)); simpl in L; auto.
    - rewrite RR; auto.
    - rewrite RR; auto.
  Qed.

  Lemma oneof_loop_e : forall run1 run2 rule sc pc mc, erun run1 run2 -> grows run1 -> forall ps i inp fur k,
    (snd (oneof_loop run1 rule i ps sc pc mc inp fur k) <= K)%nat ->
    oneof_loop run2 rule i ps sc pc mc inp fur k = oneof_loop run1 rule i ps sc pc mc inp fur k.
  Proof.
    intros run1 run2 rule sc pc mc R G. induction ps as [|p ps IH]; intros i inp fur k L; [reflexivity|].
    simpl in L |- *. pose proof (R p sc inp k) as RR.
    destruct (run1 p sc inp k) as [[[v|e| |] s'] k'] eqn:Q1.
    - rewrite RR; auto.
    - assert (LK : (k' <= K)%nat).
      { destruct (not_my_fatal e mc); simpl in L; auto. etransitivity; [|exact L]. apply oneof_loop_grows; auto. }
      rewrite RR by auto. destruct (not_my_fatal e mc); auto.
    - rewrite RR; auto.
    - rewrite RR; auto.
  Qed.

  Lemma with_escape_e : forall sc inp k (k1 k2 : unit -> out),
    ((snd (k1 tt) <= K)%nat -> k2 tt = k1 tt) -> (snd (with_escape c sc inp k k1) <= K)%nat ->
    with_escape c2 sc inp k k2 = with_escape c sc inp k k1.
  Proof.
    intros sc inp k k1 k2 C L. unfold with_escape in *. simpl. destruct (cf_esc c) as [e|]; auto.
    destruct (eat_regexp (cf_eng c) (esc_open e) inp 0); auto.
  Qed.

  Theorem parse_agree : forall f e, erun (parse c f e) (parse c2 f e).
  Proof.
    induction f as [|f IH]; intros e p sc inp k L; [reflexivity|].
    destruct p; cbn [parse] in *; cbv zeta in *; try reflexivity; try (apply with_escape_e; auto; intros L1).
    - destruct (resolve_link e t) as [[q e']|]; [apply IH; auto|reflexivity].
    - apply seq_loop_e; auto. apply parse_grows.
    - pose proof (IH e p sc inp k) as RR.
      destruct (parse c f e p sc inp k) as [[[v|x| |] s'] k'] eqn:Q1; rewrite RR; auto;
        revert L1; simpl; destruct (delim_node rule a cs ce v); auto.
    - pose proof (IH e p sc inp k) as RR.
      destruct (parse c f e p sc inp k) as [[[v|x| |] s'] k'] eqn:Q1; rewrite RR; auto.
    - destruct (replace_cut c false sc k) as [[[sa pa] ma] ka] eqn:RC.
      assert (LK : (ka <= K)%nat) by (etransitivity; [|exact L1]; apply quant_loop_grows; apply parse_grows).
      rewrite replace_cut_e; rewrite RC; auto. apply quant_loop_e; auto. apply parse_grows.
    - destruct (replace_cut c false sc k) as [[[sa pa] ma] ka] eqn:RC.
      assert (LK : (ka <= K)%nat) by (etransitivity; [|exact L1]; apply oneof_loop_grows; apply parse_grows).
      rewrite replace_cut_e; rewrite RC; auto. apply oneof_loop_e; auto. apply parse_grows.
    - cbn [cf_eng with_rnd].
      assert (G : forall t (check : tree -> bool),
        (snd match term_parser (cf_eng c) t None ident with
        | COk q => match parse c f [] q sc inp k with
                   | (ROk v, inp', k') => if check v then (ROk v, inp', k') else (RErr (EParse ident), inp', k')
                   | r => r end
        | _ => (RPanic, inp, k) end <= K)%nat ->
        match term_parser (cf_eng c) t None ident with
        | COk q => match parse c2 f [] q sc inp k with
                   | (ROk v, inp', k') => if check v then (ROk v, inp', k') else (RErr (EParse ident), inp', k')
                   | r => r end
        | _ => (RPanic, inp, k) end =
        match term_parser (cf_eng c) t None ident with
        | COk q => match parse c f [] q sc inp k with
                   | (ROk v, inp', k') => if check v then (ROk v, inp', k') else (RErr (EParse ident), inp', k')
                   | r => r end
        | _ => (RPanic, inp, k) end).
      { intros t check LL. destruct (term_parser (cf_eng c) t None ident) as [q| |]; auto.
        pose proof (IH [] q sc inp k) as RR.
        destruct (parse c f [] q sc inp k) as [[[v|x| |] s'] k'] eqn:Q1; rewrite RR; auto.
        revert LL; simpl; destruct (check v); auto. }
      destruct (lookup ident (svals sc)) as [ex|].
      + destruct (term_from_ref_val ex) as [t|]; auto; apply (G t (fun v => nodes_equal v ex)); auto.
      + destruct default; auto; apply (G (TS b) (fun _ => true)); auto.
    - apply IH; auto.
    - apply IH; auto.
  Qed.

  Theorem parse_rule_agree : forall f ps r s, (draws c f ps r s <= K)%nat ->
    parse_rule c2 f ps r s = parse_rule c f ps r s /\ draws c2 f ps r s = draws c f ps r s.
  Proof.
    intros f ps r s D. unfold parse_rule, draws in *. destruct (lookup r (p_rules ps)) as [p|]; auto.
    rewrite parse_agree; auto.
  Qed.
End Agree.

(** A stream whose first [n] numbers are fine, continued injectively. *)
Definition zmax_below (rnd : nat -> Z) (n : nat) : Z := fold_right (fun i m => Z.max (rnd i) m) 0 (seq 0 n).
Lemma zmax_below_ge : forall rnd n i, (i < n)%nat -> rnd i <= zmax_below rnd n.
Proof.
  intros rnd n i L. unfold zmax_below. assert (I : In i (seq 0 n)) by (apply in_seq; lia).
  induction (seq 0 n) as [|x l IH]; simpl in *; [contradiction|]. destruct I as [->|I]; [lia|]. apply IH in I. lia.
Qed.
Lemma zmax_below_0 : forall rnd n, 0 <= zmax_below rnd n.
Proof. intros. unfold zmax_below. induction (seq 0 n); simpl; lia. Qed.

Definition continued (rnd : nat -> Z) (n : nat) (i : nat) : Z :=
  if Nat.ltb i n then rnd i else 2 + zmax_below rnd n + Z.of_nat i.

Lemma continued_agree : forall rnd n j, (j < n)%nat -> continued rnd n j = rnd j.
Proof. intros. unfold continued. destruct (Nat.ltb_spec j n); auto; lia. Qed.

Lemma continued_ok : forall rnd n, drawn_ok rnd n -> ids_ok (continued rnd n).
Proof.
  intros rnd n [N D]. pose proof (zmax_below_0 rnd n) as Z0.
  split.
  - intros i. unfold continued. destruct (Nat.ltb_spec i n); auto. lia.
  - intros i j. unfold continued. destruct (Nat.ltb_spec i n), (Nat.ltb_spec j n); intros Q; auto.
    + pose proof (zmax_below_ge rnd n i H). lia.
    + pose proof (zmax_below_ge rnd n j H0). lia.
    + lia.
Qed.

Lemma ids_drawn : forall rnd n, ids_ok rnd -> drawn_ok rnd n.
Proof. intros rnd n [N D]. split; auto. Qed.

Section RunDrawn.
  Variable c : config.
  Hypothesis no_escape : cf_esc c = None.
  Notation E := (cf_eng c).
  Variables (g : grammar) (ps : parsers).
  Hypothesis env : env_ok E [p_rules ps] [g].

  Lemma run_sound_drawn : forall f r s, drawn_ok (cf_rnd c) (draws c f ps r s) ->
    match parse_rule c f ps r s with
    | (ROk v, s') => means E g r s (Succ v s') /\ shows s' []
    | (RErr (EUnconsumed s1 v), s') => s1 = s' /\ means E g r s (Succ v s') /\ exists t, shows s' t /\ t <> []
    | (RErr e, _) => is_plain_err e /\ means E g r s Fail \/ is_fatal_err e /\ means E g r s Abort
    | _ => True
    end.
  Proof.
    intros f r s D.
    destruct (parse_rule_agree c (continued (cf_rnd c) (draws c f ps r s)) (draws c f ps r s)
                (continued_agree _ _) f ps r s (le_n _)) as [Q _].
    rewrite <- Q.
    apply (run_sound (with_rnd c (continued (cf_rnd c) (draws c f ps r s))) no_escape (continued_ok _ _ D) g ps env).
  Qed.

End RunDrawn.

(** The configuration of a plain [Parse] call. *)
Section RunComplete.
  Variable E : engine.
  Variables (g : grammar) (ps : parsers).
  Hypothesis env : env_ok E [p_rules ps] [g].
  Variable refs : bool.
  Hypothesis lits : refs = true -> forall x, re_valid E (anchor ++ group (quote_meta x)) = true.
  Hypothesis hook : hooked_grammar refs g = true.

  Definition rnd0 (i : nat) : Z := Z.of_nat i + 2.
  Lemma rnd0_ok : ids_ok rnd0.
  Proof. unfold rnd0. split; intros; lia. Qed.

  Lemma parse_rule_more : forall c f f' r s res s', (f <= f')%nat -> parse_rule c f ps r s = (res, s') -> res <> RFuel ->
    parse_rule c f' ps r s = (res, s') /\ draws c f' ps r s = draws c f ps r s.
  Proof.
    intros c f f' r s res s' L H N. unfold parse_rule, draws in *.
    destruct (lookup r (p_rules ps)) as [p|]; auto.
    destruct (parse c f [p_rules ps] p empty_scope s 0) as [[r1 s1] k1] eqn:Q.
    assert (N1 : r1 <> RFuel) by (intros ->; inversion H; congruence).
    rewrite (parse_mono c f f' [p_rules ps] L p empty_scope s 0%nat); rewrite Q; auto.
  Qed.

  Lemma run_complete_drawn : forall r s o, means E g r s o ->
    (forall v s', o = Succ v s' -> exists t, shows s' t) ->
    exists f0 n, forall rnd f, drawn_ok rnd n -> unreserved rnd n -> (f0 <= f)%nat ->
    draws (mkConfig E [] None rnd) f ps r s = n /\
    match o with
    | Succ v s' =>
        (shows s' [] -> parse_rule (mkConfig E [] None rnd) f ps r s = (ROk v, s')) /\
        (forall t, t <> [] -> shows s' t -> parse_rule (mkConfig E [] None rnd) f ps r s = (RErr (EUnconsumed s' v), s'))
    | Fail => exists e s', parse_rule (mkConfig E [] None rnd) f ps r s = (RErr e, s') /\ is_plain_err e
    | Abort => exists e s', parse_rule (mkConfig E [] None rnd) f ps r s = (RErr e, s') /\ is_fatal_err e
    end.
  Proof.
    intros r s o M T. set (c0 := mkConfig E [] None rnd0).
    destruct (run_complete c0 eq_refl rnd0_ok g ps env refs lits hook r s o M) as (f0 & RC).
    specialize (RC f0 (le_n _)). exists f0, (draws c0 f0 ps r s). intros rnd f D U L.
    assert (TR : forall res1 s1, parse_rule c0 f0 ps r s = (res1, s1) -> res1 <> RFuel ->
      exists res2, parse_rule (mkConfig E [] None rnd) f ps r s = (res2, s1) /\ same_result res1 res2 /\
        draws (mkConfig E [] None rnd) f ps r s = draws c0 f0 ps r s).
    { intros res1 s1 Q N. destruct (parse_rule_more c0 f0 f r s res1 s1 L Q N) as [Q' DQ].
      rewrite <- DQ in D, U |- *.
      apply (parse_rule_rename c0 rnd (draws c0 f ps r s)) with (f := f) (ps := ps) (r := r) (s := s); auto.
      - apply ids_drawn. apply rnd0_ok.
      - intros i _. unfold c0, rnd0. simpl. lia.
      - split; [intros x fn F; discriminate|intros e F; discriminate]. }
    destruct o as [v s'| |].
    - destruct RC as [R1 R2]. destruct (T _ _ eq_refl) as [t ST]. destruct t as [|b t].
      + destruct (TR _ _ (R1 ST)) as (res2 & Q & SR & DR); [discriminate|]. split; auto.
        destruct res2; simpl in SR; try discriminate. inversion SR; subst. split; auto.
        intros t1 NT S2. unfold shows in *. congruence.
      + destruct (TR _ _ (R2 (b :: t) ltac:(discriminate) ST)) as (res2 & Q & SR & DR); [discriminate|]. split; auto.
        destruct res2 as [|e2| |]; simpl in SR; try discriminate. destruct e2; try discriminate. inversion SR; subst.
        split; auto. intros S2. unfold shows in *. congruence.
    - destruct RC as (e & s' & Q & PE). destruct (TR _ _ Q) as (res2 & Q2 & SR & DR); [discriminate|]. split; auto.
      destruct res2 as [|e2| |]; simpl in SR; try discriminate. exists e2, s'. split; auto.
      destruct e, e2; simpl in *; try contradiction; try discriminate; auto.
    - destruct RC as (e & s' & Q & PE). destruct (TR _ _ Q) as (res2 & Q2 & SR & DR); [discriminate|]. split; auto.
      destruct res2 as [|e2| |]; simpl in SR; try discriminate. exists e2, s'. split; auto.
      destruct e, e2; simpl in *; try contradiction; try discriminate; auto.
  Qed.
End RunComplete.
