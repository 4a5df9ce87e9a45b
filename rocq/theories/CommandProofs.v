(** The commands: when they succeed and what they show. *)
From Verif Require Import Base Scanner ScannerSpec ScannerProofs Syntax Engine Resolve Compile Parse PegSpec FlowSpec FordSpec CutSpec ApiSpec ApiProofs DrawProofs WfSpec Ast AstSpec AstProofs AstFits AstParse WbnfAst Walker
  Build Recursion Validate Front FrontFuel RecursionSpec RefsSpec RefsProofs TextSpec TextProofs GuardSpec PredictSpec Command CommandSpec Prop_Refs Prop_Predict.
Local Open Scope list_scope.

Lemma read_given : forall w stdin file x, read_input w stdin file = Some x <-> given w stdin file x.
Proof.
  intros w stdin file x. unfold read_input. destruct (String.eqb_spec file ""), (String.eqb_spec file "-"); cbn [orb]; split; intros H; try (now apply given_stdin; auto); try (now apply given_file; auto).
  all: inversion H; subst; auto; try congruence; intuition congruence.
Qed.

Definition whole (file : string) (x : bytes) : scanner := mkScanner (Some (mkSource x file)) 0 (blen x).
Lemma whole_window : forall file x, in_range (whole file x) /\ shows (whole file x) x.
Proof.
  intros file x. assert (W : window (whole file x) (mkSource x file) 0 (length x)) by (repeat split; cbn; lia).
  split; [exists (mkSource x file), 0%nat, (length x); exact W|]. apply (window_shows _ _ _ _ x W). exists [], []. rewrite app_nil_r. auto.
Qed.

Section Test.
  Variables (w : world) (wbnf : parsers) (rnd : nat -> Z) (stdin : option bytes) (fl : flags) (depth fuel : nat) (txt input : bytes).
  Notation E := (w_engine w).
  Notation call := (mkConfig E [] None rnd).
  Notation test := (run_test w wbnf rnd stdin fl depth fuel).
  Notation inp := (whole (f_input fl) input).
  Hypothesis grammar_given : f_grammar fl <> ""%string.
  Hypothesis start_given : f_start fl <> ""%string.
  Hypothesis text_given : w_read w (f_grammar fl) = Some txt.
  Hypothesis input_given : given w stdin (f_input fl) input.

  Definition ends_with (ps : parsers) (pf : nat) : cres outcome :=
    match lookup (f_start fl) (p_rules ps) with None => COk (mkOutcome [] (Fails NoStartRule)) | Some _ => test_text w rnd fl ps pf input end.
  Lemma test_compiled : forall ps pf, compile_text (resolving w (f_grammar fl)) wbnf depth fuel txt = COk (inr ps) -> test pf = ends_with ps pf.
  Proof.
    intros ps pf C. unfold run_test. apply read_given in input_given as ->. destruct (String.eqb_spec (f_grammar fl) ""); [contradiction|]. unfold load_test_grammar. rewrite text_given.
    destruct (String.eqb_spec (f_start fl) ""); [contradiction|]. rewrite C. reflexivity.
  Qed.

  (** The parts of a successful run. *)
  Lemma test_success : forall pf o, test pf = COk o -> exit_code o = 0 ->
    exists ps v s' b g', compile_text (resolving w (f_grammar fl)) wbnf depth fuel txt = COk (inr ps) /\ parse_rule call pf ps (f_start fl) inp = (ROk v, s') /\
      from_parser_node pf (p_grammar ps) v = COk (b, g') /\ o_shown o = [show fl (f_start fl) (ABranch b)].
  Proof.
    intros pf o H X. unfold run_test in H. rewrite (proj2 (read_given _ _ _ _) input_given) in H. destruct (String.eqb_spec (f_grammar fl) ""); [contradiction|].
    unfold load_test_grammar in H. rewrite text_given in H. destruct (String.eqb_spec (f_start fl) ""); [contradiction|].
    destruct (compile_text _ _ _ _ _) as [[e|ps]| |] eqn:C; cbn [cbind caught] in H; try (injection H as <-; discriminate); try discriminate.
    destruct (lookup (f_start fl) (p_rules ps)) as [p|]; [|injection H as <-; discriminate]. unfold test_text in H. change (mkScanner _ _ _) with inp in H.
    destruct (parse_rule _ _ _ _ _) as [[v|e| |] s'] eqn:P; try (injection H as <-; discriminate); try discriminate.
    - destruct (from_parser_node _ _ v) as [[b g']| |] eqn:F; cbn [caught] in H; try discriminate; injection H as <-; [|discriminate]. exists ps, v, s', b, g'. auto.
    - destruct e as [r|r m| |rest v|]; try (injection H as <-; discriminate). destruct (from_parser_node _ _ v) as [[b g']| |]; cbn [caught] in H; try discriminate; injection H as <-; discriminate.
  Qed.
  (** The other way round. *)
  Lemma test_passes : forall pf ps v s' b g', compile_text (resolving w (f_grammar fl)) wbnf depth fuel txt = COk (inr ps) -> parse_rule call pf ps (f_start fl) inp = (ROk v, s') ->
    from_parser_node pf (p_grammar ps) v = COk (b, g') -> test pf = COk (mkOutcome [show fl (f_start fl) (ABranch b)] Success).
  Proof.
    intros pf ps v s' b g' C P F. rewrite (test_compiled _ _ C). unfold ends_with. destruct (lookup (f_start fl) (p_rules ps)) as [p|] eqn:L; [|unfold parse_rule in P; rewrite L in P; discriminate].
    unfold test_text. change (mkScanner _ _ _) with inp. rewrite P, F. reflexivity.
  Qed.

  (** A run that shows something and fails has left a rest. *)
  Lemma test_rest : engine_ok E -> forall pf o, test pf = COk o -> exit_code o <> 0 -> o_shown o <> [] ->
    exists ps v s' b g' eaten rest, compile_text (resolving w (f_grammar fl)) wbnf depth fuel txt = COk (inr ps) /\ parse_rule call pf ps (f_start fl) inp = (RErr (EUnconsumed s' v), s') /\
      from_parser_node pf (p_grammar ps) v = COk (b, g') /\ o = mkOutcome [show fl (f_start fl) (ABranch b)] (Fails (NoParse (EUnconsumed s' v))) /\
      input = eaten ++ rest /\ rest <> [] /\ shows s' rest.
  Proof.
    intros OK pf o H X N. unfold run_test in H. rewrite (proj2 (read_given _ _ _ _) input_given) in H. destruct (String.eqb_spec (f_grammar fl) ""); [contradiction|].
    unfold load_test_grammar in H. rewrite text_given in H. destruct (String.eqb_spec (f_start fl) ""); [contradiction|].
    destruct (compile_text _ _ _ _ _) as [[e|ps]| |] eqn:C; cbn [cbind caught] in H; try (injection H as <-; now contradiction N); try discriminate.
    destruct (lookup (f_start fl) (p_rules ps)) as [p|]; [|injection H as <-; now contradiction N]. unfold test_text in H. change (mkScanner _ _ _) with inp in H.
    destruct (parse_rule _ _ _ _ _) as [[v|e| |] s'] eqn:P; try (injection H as <-; now contradiction N); try discriminate.
    - destruct (from_parser_node _ _ v) as [[b g']| |] eqn:F; cbn [caught] in H; try discriminate; injection H as <-; [now contradiction X|now contradiction N].
    - destruct e as [r|r m| |rest v|]; try (injection H as <-; now contradiction N). destruct (from_parser_node _ _ v) as [[b g']| |] eqn:F; cbn [caught] in H; try discriminate; injection H as <-; [|now contradiction N].
      destruct (whole_window (f_input fl) input) as [I S]. assert (NL : no_leftovers call) by (intros s fn sc i residue te L; discriminate).
      assert (TM : tame call) by (split; [exact OK|]; split; intros; discriminate).
      destruct (unconsumed _ _ _ _ _ _ _ _ NL P) as (-> & _). destruct (residue_suffix _ _ _ _ _ _ _ _ _ TM NL I S P) as (eaten & r & A & B & D).
      exists ps, v, s', b, g', eaten, r. auto 10.
  Qed.
End Test.

(** ** What the exit code says *)
Section Decides.
  Variables (w : world) (wbnf : parsers) (rnd : nat -> Z) (stdin : option bytes) (fl : flags) (depth fuel : nat) (txt input : bytes).
  Notation E := (w_engine w).
  Notation call := (mkConfig E [] None rnd).
  Notation test := (run_test w wbnf rnd stdin fl depth fuel).
  Notation inp := (whole (f_input fl) input).
  Hypothesis grammar_given : f_grammar fl <> ""%string.
  Hypothesis start_given : f_start fl <> ""%string.
  Hypothesis text_given : w_read w (f_grammar fl) = Some txt.
  Hypothesis input_given : given w stdin (f_input fl) input.
  Variables (n : anode) (g : grammar) (ps : parsers).
  Hypothesis loaded : load_text (resolving w (f_grammar fl)) wbnf depth fuel txt = COk (inr n).
  Hypothesis valid : validate E (w_runtime w) fuel n = COk [].
  Hypothesis built : new_from_ast fuel n = COk g.
  Hypothesis compiled : compile E g = COk ps.
  Lemma text_compiled : compile_text (resolving w (f_grammar fl)) wbnf depth fuel txt = COk (inr ps).
  Proof. apply C52_compile_text. right. exists n. split; auto. right. split; auto. exists g, ps. auto. Qed.

  (** The trees of the start rule can be turned into ASTs. *)
  Hypothesis converts : forall f v s', result (parse_rule call f ps (f_start fl) inp) v s' -> exists N, forall k, N <= k -> exists b g', from_parser_node k (p_grammar ps) v = COk (b, g').

  (** The run ends as the parse ends. *)
  Lemma test_settles : forall f0 o, (forall f, f0 <= f -> parse_rule call f ps (f_start fl) inp = o) -> fst o <> RFuel ->
    exists pf0 x, (forall pf, pf0 <= pf -> test pf = COk x) /\ (exit_code x = 0 <-> exists v, fst o = ROk v).
  Proof.
    intros f0 [r s'] P NF. cbn [fst] in *. assert (T : forall pf, test pf = ends_with w rnd fl input ps pf) by (intros pf; apply test_compiled with (txt := txt); auto; apply text_compiled).
    unfold ends_with in T. destruct (lookup (f_start fl) (p_rules ps)) as [p|] eqn:L.
    2:{ exists 0, (mkOutcome [] (Fails NoStartRule)). split; auto. split; [discriminate|]. intros (v & ->). specialize (P f0 (le_n _)). unfold parse_rule in P. rewrite L in P. discriminate. }
    assert (CV : forall v e, result (parse_rule call f0 ps (f_start fl) inp) v s' -> exists N b, forall pf, N <= pf ->
      caught [] (from_parser_node pf (p_grammar ps) v) (fun '(b, _) => COk (mkOutcome [show fl (f_start fl) (ABranch b)] e)) = COk (mkOutcome [show fl (f_start fl) (ABranch b)] e)).
    { intros v e R. destruct (converts _ _ _ R) as (N & Q). destruct (Q N (le_n _)) as (b & g' & F). exists N, b. intros pf LE. rewrite (from_parser_mono _ pf _ _ _ LE F). reflexivity. }
    pose proof (P f0 (le_n _)) as P0. unfold test_text in T. change (mkScanner _ _ _) with inp in T. destruct r as [v|e| |]; try (now contradiction NF).
    - destruct (CV v Success) as (N & b & Q); [left; exact P0|]. exists (f0 + N), (mkOutcome [show fl (f_start fl) (ABranch b)] Success).
      split; [intros pf LE; rewrite T, P by lia; apply Q; lia|]. split; eauto.
    - assert (ELSE : forall x, (forall pf, f0 <= pf -> test pf = COk x) -> exit_code x <> 0 -> exists pf0 x, (forall pf, pf0 <= pf -> test pf = COk x) /\ (exit_code x = 0 <-> exists v, RErr e = ROk v)).
      { intros x A B. exists f0, x. split; auto. split; [contradiction|intros (v & X); discriminate]. }
      destruct e as [q|q cp| |rest v|]; try (eapply ELSE; [intros pf LE; rewrite T, P by lia; reflexivity|discriminate]).
      assert (NL : no_leftovers call) by (intros s fn sc i residue te Z; discriminate). destruct (unconsumed _ _ _ _ _ _ _ _ NL P0) as (-> & _).
      destruct (CV v (Fails (NoParse (EUnconsumed s' v)))) as (N & b & Q); [right; exact P0|]. eexists (f0 + N), _.
      split; [intros pf LE; rewrite T, P by lia; apply Q; lia|]. split; [discriminate|intros (x & X); discriminate].
    - exists f0, (mkOutcome [] (Panics Runtime)). split; [intros pf LE; rewrite T, P by lia; reflexivity|]. split; [discriminate|intros (v & X); discriminate].
  Qed.
End Decides.
