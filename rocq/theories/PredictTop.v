(** Running a predictive grammar with the inserted cut points. *)
From Verif Require Import Base Scanner ScannerSpec ScannerProofs Syntax Engine Resolve Compile Parse PegSpec
  DerivSpec FordSpec CutSpec ApiSpec CompileProofs PegProofs PegComplete TopProofs DrawProofs DerivProofs CutProofs ApiProofs FordProofs CutPoints CutPointSpec CutPointProofs
  PredictSpec PredictProofs.
Local Open Scope Z_scope.

Lemma textbook_wraps : forall E t, textbook E t -> wraps t = [].
Proof.
  intros E. induction t as [r|x|x|i d|x|ts IH|ts IH|ts IH|u sep a cs ce IHu IHs|u IHu|u mn mx IHu|n u IHu|u g0 IHu IHg|u IHu] using term_ind';
    simpl; intros TX; auto; try contradiction.
  - induction IH as [|u us H F IHl]; simpl; auto. destruct TX as [A B]. rewrite H, IHl; auto.
  - induction IH as [|u us H F IHl]; simpl; auto. destruct TX as [A B]. rewrite H, IHl; auto.
  - destruct TX as [A B]. rewrite IHu, IHs; auto.
Qed.
Lemma textbook_unwrapped : forall E g, NoDup (keys g) -> textbook_grammar E g -> wraps_grammar g = [].
Proof.
  intros E g ND [TX W]. unfold wraps_grammar.
  assert (X : forall kv, In kv g -> textbook E (snd kv) /\ String.eqb (fst kv) WrapRE = false).
  { intros [k t] I. pose proof (In_lookup _ _ _ ND I) as L. simpl. split; [eauto|]. apply String.eqb_neq. intros ->. congruence. }
  clear ND TX W. induction g as [|kv g IH]; simpl; auto. destruct (X kv (or_introl eq_refl)) as [A B].
  rewrite B, (textbook_wraps E), IH; simpl; auto. intros kv' I. apply X. right. auto.
Qed.

Lemma drawn_ids : forall rnd, (forall n, drawn_ok rnd n) -> ids_ok rnd.
Proof.
  intros rnd H. split.
  - intros i. apply (H (S i)). lia.
  - intros i j Q. apply (H (S (i + j))); auto; lia.
Qed.

(** With the cut points a parse says nothing that the textbook reading of the grammar does not say. *)
Theorem marked_textbook : forall c g ps f r s x, cf_esc c = None -> engine_ok (cf_eng c) -> NoDup (keys g) -> textbook_grammar (cf_eng c) g -> sound_rules g ->
  compile (cf_eng c) (insert_cut_points g) = COk ps -> drawn_ok (cf_rnd c) (draws c f ps r s) -> in_range s -> shows s x ->
  match parse_rule c f ps r s with
  | (ROk v, s') => means (cf_eng c) g r s (Succ v s') /\ ford (cf_eng c) g (TRule r) x (Some [])
  | (RErr (EUnconsumed residue v), s') => exists rest, shows residue rest /\ rest <> [] /\ ford (cf_eng c) g (TRule r) x (Some rest)
  | (RErr (EParse _), _) => ford (cf_eng c) g (TRule r) x None
  | _ => True
  end.
Proof.
  intros c g ps f r s x NE OK ND TB SR C DR I S.
  destruct (textbook_all _ g ND TB SR) as (RD0 & NC & HK0).
  destruct (marked_grammar_keeps _ false _ _ (insert_marked g) RD0 HK0) as [RD HK].
  pose proof (insert_marked g) as MG. pose proof (textbook_unwrapped _ g ND TB) as WU.
  assert (TD : tidy_grammar (insert_cut_points g) = true).
  { unfold tidy_grammar. apply andb_true_iff. split.
    - apply (marked_grammar_tidy _ _ _ MG NC). rewrite WU. intros w y [].
    - apply (marked_wrap _ _ _ MG); [exact (proj1 (forallb_forall _ _) NC)|].
      intros w y L. exfalso. assert (Z : In w (wraps_grammar g)); [|rewrite WU in Z; exact Z].
      unfold wraps_grammar. apply in_flat_map. exists (WrapRE, w). simpl. auto. }
  assert (UP : forall o, o <> Abort -> means (cf_eng c) (insert_cut_points g) r s o -> means (cf_eng c) g r s o).
  { intros o N M. pose proof (means_erase _ _ _ _ _ TD M N) as Y. rewrite insert_erase, erase_id_grammar in Y; auto. }
  destruct (means_ford _ g OK TB r s x I S) as (F1 & F2 & _).
  pose proof (run_sound_drawn c NE _ ps (readable_env _ _ _ C RD) f r s DR) as X.
  destruct (parse_rule c f ps r s) as [[v|e| |] s']; auto.
  - destruct X as [X SH]. apply UP in X; [|discriminate]. split; auto. apply F1. eauto.
  - destruct e; auto.
    + destruct X as [[_ X]|[X _]]; [|contradiction]. apply F2. apply UP; auto. discriminate.
    + destruct X as (-> & X & rest & SH & NT). apply UP in X; [|discriminate]. exists rest. repeat split; auto. apply F1. eauto.
Qed.

Section Top.
  Variables (E : engine) (T : table) (g : grammar) (ps : parsers).
  Hypothesis OK : engine_ok E.
  Hypothesis ND : NoDup (keys g).
  Hypothesis TB : textbook_grammar E g.
  Hypothesis SR : sound_rules g.
  Hypothesis PG : predictive_grammar E T g.
  Hypothesis comp : compile E (insert_cut_points g) = COk ps.

  Lemma cut_env : readable (insert_cut_points g) /\ hooked_grammar false (insert_cut_points g) = true.
  Proof.
    destruct (textbook_all E g ND TB SR) as (RD & NC & HK).
    apply (marked_grammar_keeps _ false _ _ (insert_marked g) RD HK).
  Qed.
  
  Theorem predictive_runs : forall rnd, ids_ok rnd -> forall r s x o, in_range s -> shows s x -> means E g r s o ->
    exists f0, forall f, (f0 <= f)%nat ->
    match o with
    | Succ v s' =>
        (shows s' [] -> parse_rule (plain_call E rnd) f ps r s = (ROk v, s')) /\
        (forall t, t <> [] -> shows s' t ->
           parse_rule (plain_call E rnd) f ps r s = (RErr (EUnconsumed s' v), s') \/
           (exists e s2, parse_rule (plain_call E rnd) f ps r s = (RErr e, s2) /\ is_fatal_err e) /\
           exists c q, t = c :: q /\ ~ In c (t_next T r))
    | _ => exists e s', parse_rule (plain_call E rnd) f ps r s = (RErr e, s') /\ (is_plain_err e \/ is_fatal_err e)
    end.
  Proof.
    intros rnd IDS r s x o I S M. destruct cut_env as [RD HK].
    destruct (predict_means E T g OK TB PG _ _ (insert_marked g) r s x o I S M) as (o' & M' & A).
    destruct (run_complete (plain_call E rnd) eq_refl IDS (insert_cut_points g) ps (readable_env _ _ _ comp RD) false ltac:(discriminate) HK r s o' M')
      as (f0 & RC).
    exists f0. intros f L. specialize (RC f L). destruct A as [->|(-> & [->|(v & s' & c & q & -> & SH & NI)])].
    - destruct o as [v s'| |].
      + destruct RC as [R1 R2]. split; auto. intros t NT SH. left. eauto.
      + destruct RC as (e & s' & Q & PE). eauto.
      + destruct RC as (e & s' & Q & PE). eauto.
    - destruct RC as (e & s' & Q & PE). eauto.
    - split; [intros X; unfold shows in *; congruence|]. intros t NE S'. right. split; [exact RC|].
      assert (t = c :: q) by (unfold shows in *; congruence). subst. eauto.
  Qed.

  (** The language is that of the textbook reading, with the same trees. *)
  Theorem predictive_accepts : forall rnd, ids_ok rnd -> forall r s x, in_range s -> shows s x ->
    (forall v s', (exists f, parse_rule (plain_call E rnd) f ps r s = (ROk v, s')) <-> means E g r s (Succ v s') /\ shows s' []) /\
    ((exists f v s', parse_rule (plain_call E rnd) f ps r s = (ROk v, s')) <-> ford E g (TRule r) x (Some [])).
  Proof.
    intros rnd IDS r s x I S.
    assert (A : forall v s', (exists f, parse_rule (plain_call E rnd) f ps r s = (ROk v, s')) <-> means E g r s (Succ v s') /\ shows s' []).
    { intros v s'. split.
      - intros [f Q].
        pose proof (marked_textbook (plain_call E rnd) g ps f r s x eq_refl OK ND TB SR comp (ids_drawn _ _ IDS) I S) as X.
        rewrite Q in X. destruct X as [X _]. split; auto.
        pose proof (run_sound (plain_call E rnd) eq_refl IDS (insert_cut_points g) ps (readable_env _ _ _ comp (proj1 cut_env)) f r s) as Y.
        rewrite Q in Y. apply Y.
      - intros [M SH]. destruct (predictive_runs rnd IDS r s x _ I S M) as (f0 & RC). exists f0. apply RC; auto. }
    split; [exact A|]. destruct (means_ford E g OK TB r s x I S) as (F1 & _). rewrite <- F1. split.
    - intros (f & v & s' & Q). exists v, s'. apply A. eauto.
    - intros (v & s' & M & SH). destruct (proj2 (A v s') (conj M SH)) as (f & Q). eauto.
  Qed.
End Top.

Theorem predictive_preserved : forall E T g ps0 ps rnd, engine_ok E -> NoDup (keys g) -> textbook_grammar E g -> sound_rules g ->
  predictive_grammar E T g -> compile E g = COk ps0 -> compile E (insert_cut_points g) = COk ps -> (forall n, drawn_ok rnd n) ->
  forall r s x v s', in_range s -> shows s x ->
  ((exists f, parse_rule (plain_call E rnd) f ps r s = (ROk v, s')) <-> (exists f, parse_rule (plain_call E rnd) f ps0 r s = (ROk v, s'))).
Proof.
  intros E T g ps0 ps rnd OK ND TB SR PG C0 C IDS r s x v s' I S. apply drawn_ids in IDS.
  rewrite (proj1 (predictive_accepts E T g ps OK ND TB SR PG C rnd IDS r s x I S) v s').
  destruct (textbook_all E g ND TB SR) as (RD & NC & HK). destruct (uncut_peg E g ps0 C0 RD HK NC rnd r s) as (U1 & _).
  split.
  - intros [M SH]. apply U1; auto.
  - intros [f Q]. pose proof (uncut_sound E g ps0 C0 RD NC rnd f r s) as X. rewrite Q in X. exact X.
Qed.
