(** Property C85: the commands tell whether they succeeded. *)
From Verif Require Import Base Scanner ScannerSpec Syntax Engine Regex RegexProofs Resolve Compile Parse PegSpec FlowSpec FordSpec CutSpec ApiSpec ApiProofs DrawProofs WfSpec Ast AstSpec AstProofs AstFits AstParse AstDemo Demo
  WbnfGrammar WbnfAst Walker Build Recursion Validate Front FrontSpec FrontFuel FrontDemo FrontCheck RecursionSpec RefsSpec RefsProofs TextSpec TextProofs TextCheck GuardSpec GuardProofs PredictSpec PredictProofs PredictTop PredictCheck Types Report ReportSpec
  Command CommandSpec CommandProofs Prop_Refs Prop_Guard Prop_Predict Prop_Types Prop_Report WbnfTypes Paths PathSpec Prop_Paths.
Local Open Scope list_scope.

(** C85: for a grammar text in which one byte decides, without left recursion and whose trees can be turned into ASTs, the test command always ends.  Its exit code is 0 exactly if the input
    is what the text says the start rule matches. *)
Theorem C85_decides : forall w wbnf rnd stdin fl depth fuel txt input n prods g ps T eating d, engine_ok (w_engine w) ->
  f_grammar fl <> ""%string -> f_start fl <> ""%string -> w_read w (f_grammar fl) = Some txt -> given w stdin (f_input fl) input ->
  load_text (resolving w (f_grammar fl)) wbnf depth fuel txt = COk (inr n) ->
  plain_tree n -> reads_grammar n prods -> validate (w_engine w) (w_runtime w) fuel n = COk [] -> new_from_ast fuel n = COk g -> compile (w_engine w) g = COk ps ->
  textbook_grammar (w_engine w) (grammar_text prods) -> sound_rules (grammar_text prods) -> predictive_grammar (w_engine w) T (grammar_text prods) -> (forall k, drawn_ok rnd k) ->
  collect_dangers fuel n = COk d -> (forall p, ~ cycle d p) -> guarded_text (w_engine w) (lookup WrapRE g) eating prods ->
  readable (p_grammar ps) -> smooth_grammar (p_grammar ps) -> coherent (p_grammar ps) -> f_start fl <> WrapRE ->
  (forall t, rule_body [p_grammar ps] (f_start fl) [p_grammar ps] t -> own_tag t = true) ->
  exists pf0 o, (forall pf, pf0 <= pf -> run_test w wbnf rnd stdin fl depth fuel pf = COk o) /\
    (exit_code o = 0 <-> ford (w_engine w) (grammar_text prods) (TRule (f_start fl)) input (Some [])).
Proof.
  intros w wbnf rnd stdin fl depth fuel txt input n prods g ps T eating d OK FG FS TG IG L P R V B C TB SR PG DR D A G RD SM CO NW OT.
  destruct (whole_window (f_input fl) input) as [I S].
  destruct (C68_decides (w_engine w) T (w_runtime w) fuel n prods fuel g ps rnd eating d OK P R V B C TB SR PG DR D A G) with (r := f_start fl) (3 := S) as (f0 & o & Q & NF & W); auto.
  { split; [exact OK|]. split; intros; discriminate. }
  destruct (test_settles w wbnf rnd stdin fl depth fuel txt input FG FS TG IG n g ps L V B C) with (2 := Q) as (pf0 & x & X1 & X2); auto.
  - intros f v s' RS. exact (compiled_converts (mkConfig (w_engine w) [] None rnd) eq_refl g ps C RD SM CO (f_start fl) NW FS OT f _ v s' (DR _) RS).
  - exists pf0, x. split; auto. rewrite X2. exact W.
Qed.
Print Assumptions C85_decides.

(** Whatever the grammar: on success one AST is shown.  It reads the leaves of a tree of the start rule that covers the whole input; if the grammar has neither look-ahead nor groups
    their texts are the input. *)
Theorem C85_shows : forall w wbnf rnd stdin fl depth fuel txt input pf o, engine_ok (w_engine w) ->
  f_grammar fl <> ""%string -> f_start fl <> ""%string -> w_read w (f_grammar fl) = Some txt -> given w stdin (f_input fl) input -> (forall k, drawn_ok rnd k) ->
  run_test w wbnf rnd stdin fl depth fuel pf = COk o -> exit_code o = 0 ->
  exists g ps v b, build_text (resolving w (f_grammar fl)) wbnf depth fuel txt = COk (inr g) /\ compile (w_engine w) g = COk ps /\
    (f_tree fl = true -> o_shown o = [ShowTree (f_start fl) (ABranch b)]) /\ (f_tree fl = false -> o_shown o = [ShowNode (ABranch b)]) /\
    (exists s', parse_rule (mkConfig (w_engine w) [] None rnd) pf ps (f_start fl) (whole (f_input fl) input) = (ROk v, s')) /\
    (readable (p_grammar ps) -> AstSpec.reads (ABranch b) (leaves v)) /\
    (readable g -> no_groups_grammar (w_engine w) g -> no_look_grammar g = true -> exists txts, Forall2 shows (leaves v) txts /\ concat txts = input).
Proof.
  intros w wbnf rnd stdin fl depth fuel txt input pf o OK FG FS TG IG DR H X.
  destruct (test_success w wbnf rnd stdin fl depth fuel txt input FG FS TG IG pf o H X) as (ps & v & s' & b & g' & C & P & F & SH).
  unfold compile_text in C. apply cbind_inv in C as ([e|g] & BT & C); [discriminate|]. apply cbind_inv in C as (ps' & C & EQ). injection EQ as ->.
  destruct (whole_window (f_input fl) input) as [I S]. exists g, ps, v, b. split; auto. split; auto. split; [intros FT; unfold show in SH; now rewrite FT in SH|]. split; [intros FT; unfold show in SH; now rewrite FT in SH|]. split; [eauto|]. split.
  - intros R. eapply (compiled_reads (mkConfig (w_engine w) [] None rnd)); eauto. left. exact P.
  - intros R NG NL. destruct (result_lossless (mkConfig (w_engine w) [] None rnd)) with (g := g) (ps := ps) (f := pf) (r := f_start fl) (s := whole (f_input fl) input) (v := v) (s' := s') as (txts & rest & A & B & D); auto.
    + left. exact P.
    + exists txts. split; auto. apply full_consumption in P as [_ E0]. unfold shows in *. rewrite S in B. rewrite E0 in D. injection D as <-. rewrite app_nil_r in B. congruence.
Qed.
Print Assumptions C85_shows.

(** When something is shown though the command fails, it is the AST of a tree that ends before the end of the input. *)
Theorem C85_rest : forall w wbnf rnd stdin fl depth fuel txt input pf o, engine_ok (w_engine w) ->
  f_grammar fl <> ""%string -> f_start fl <> ""%string -> w_read w (f_grammar fl) = Some txt -> given w stdin (f_input fl) input ->
  run_test w wbnf rnd stdin fl depth fuel pf = COk o -> exit_code o <> 0 -> o_shown o <> [] ->
  exists ps v s' b g' eaten rest, compile_text (resolving w (f_grammar fl)) wbnf depth fuel txt = COk (inr ps) /\
    parse_rule (mkConfig (w_engine w) [] None rnd) pf ps (f_start fl) (whole (f_input fl) input) = (RErr (EUnconsumed s' v), s') /\
    from_parser_node pf (p_grammar ps) v = COk (b, g') /\ o_end o = Fails (NoParse (EUnconsumed s' v)) /\
    (f_tree fl = true -> o_shown o = [ShowTree (f_start fl) (ABranch b)]) /\ (f_tree fl = false -> o_shown o = [ShowNode (ABranch b)]) /\
    input = eaten ++ rest /\ rest <> [] /\ shows s' rest.
Proof. 
  intros w wbnf rnd stdin fl depth fuel txt input pf o OK FG FS TG IG H X Y. destruct (test_rest w wbnf rnd stdin fl depth fuel txt input FG FS TG IG OK pf o H X Y) as (ps & v & s' & b & g' & eaten & rest & A & B & C & -> & D).
  exists ps, v, s', b, g', eaten, rest. do 4 (split; [auto|]). unfold show. cbn [o_shown]. split; [intros ->; reflexivity|]. split; [intros ->; reflexivity|auto].
Qed.
Print Assumptions C85_rest.

(** Without the flag grammar the input is taken as a grammar: the exit code is 0 exactly if it has no fault and compiles, and the AST of the text with its imports is shown. *)
Theorem C85_grammars : forall w wbnf rnd stdin fl depth fuel input pf o, f_grammar fl = ""%string -> given w stdin (f_input fl) input ->
  run_test w wbnf rnd stdin fl depth fuel pf = COk o ->
  (exit_code o = 0 <-> exists n g ps, load_text (resolving w (f_input fl)) wbnf depth fuel input = COk (inr n) /\ validate (w_engine w) (w_runtime w) fuel n = COk [] /\
                                      new_from_ast fuel n = COk g /\ compile (w_engine w) g = COk ps /\
     (f_tree fl = true -> o_shown o = [ShowTree "grammar" n]) /\ (f_tree fl = false -> o_shown o = [ShowNode n])) /\
  (exit_code o <> 0 -> o_shown o = []).
Proof.
  intros w wbnf rnd stdin fl depth fuel input pf o FG IG H. unfold run_test in H. rewrite (proj2 (read_given _ _ _ _) IG), FG in H. cbn [String.eqb] in H. unfold test_grammar in H.
  destruct (compile_text (resolving w (f_input fl)) wbnf depth fuel input) as [[e|ps]| |] eqn:C; cbn [caught] in H; try discriminate.
  - injection H as <-. split; auto. split; [discriminate|]. intros (n & g & ps & L & V & B & K & _). exfalso.
    assert (X : compile_text (resolving w (f_input fl)) wbnf depth fuel input = COk (inr ps)) by (apply C52_compile_text; right; exists n; split; auto; right; split; auto; exists g, ps; auto). congruence.
  - apply C52_compile_text in C as [(e & _ & X)|(n & L & [(v & vs & _ & X)|(V & g & ps' & B & K & X)])]; try discriminate. rewrite L in H. cbn [caught] in H. injection H as <-.
    split; [|intros X0; now contradiction X0]. split; auto. intros _. exists n, g, ps'. do 4 (split; [auto|]). unfold show. cbn [o_shown]. split; intros ->; reflexivity.
  - injection H as <-. split; auto. split; [discriminate|]. intros (n & g & ps & L & V & B & K & _). exfalso.
    assert (X : compile_text (resolving w (f_input fl)) wbnf depth fuel input = COk (inr ps)) by (apply C52_compile_text; right; exists n; split; auto; right; split; auto; exists g, ps; auto). congruence.
Qed.
Print Assumptions C85_grammars.

(** A grammar text with a plain syntax error: nothing is shown, and printing the value that the command panics with, as it does then, never ends. *)
Theorem C85_syntax_errors : forall quote show_text grow about about_text trim opaque w wbnf rnd stdin fl depth fuel pf txt input q s', compile (w_engine w) wbnf_grammar = COk wbnf ->
  f_grammar fl <> ""%string -> f_start fl <> ""%string -> w_read w (f_grammar fl) = Some txt -> given w stdin (f_input fl) input ->
  parse_rule (mkConfig (w_engine w) [] None (w_rnd w)) fuel wbnf "grammar" (whole "" txt) = (RErr (EParse q), s') ->
  run_test w wbnf rnd stdin fl depth fuel pf = COk (mkOutcome [] (Panics (BadGrammar BadSyntax))) /\
  exists x, rule_fault quote show_text (mkConfig (w_engine w) [] None (w_rnd w)) fuel wbnf "grammar" (whole "" txt) = Some x /\
    forall n place t, error_text grow about about_text trim opaque n place x <> COk t.
Proof.
  intros quote show_text grow about about_text trim opaque w wbnf rnd stdin fl depth fuel pf txt input q s' C FG FS TG IG P. split.
  - unfold run_test. rewrite (proj2 (read_given _ _ _ _) IG). destruct (String.eqb_spec (f_grammar fl) ""); [contradiction|]. unfold load_test_grammar. rewrite TG.
    destruct (String.eqb_spec (f_start fl) ""); [contradiction|]. unfold compile_text, build_text, load_text, make_grammar, parse_text.
    change (w_engine (resolving w (f_grammar fl))) with (w_engine w). change (w_rnd (resolving w (f_grammar fl))) with (w_rnd w). change (mkScanner (Some (mkSource txt "")) 0 (blen txt)) with (whole "" txt).
    rewrite P. reflexivity.
  - eapply C83_grammars; eauto.
Qed.
Print Assumptions C85_syntax_errors.

(** Both commands look for the files that the grammar imports in the directory of the grammar file. *)
Theorem C85_imports : forall w file cwd dir name path, splits file dir name ->
  exists resolve, w_resolve (resolving w file) = Some resolve /\ place cwd (resolve ""%string path) = below (place cwd dir) path.
Proof. intros w file cwd dir name path S. eexists. split; [reflexivity|]. now apply C79_top with (name := name). Qed.
Print Assumptions C85_imports.

(** The command gen ends with code 0 exactly if the grammar builds and compiles, the types of its rules can be made and the code renders; then the code is what it prints or writes.
    Otherwise it prints and writes nothing. *)
Theorem C85_gen : forall w wbnf camel ids render writes file pkg start out depth fuel o, run_gen w wbnf camel ids render writes file pkg start out depth fuel = COk o ->
  (gen_code o = 0 <-> exists txt g ps ds code, w_read w file = Some txt /\ start <> ""%string /\ build_text (resolving w file) wbnf depth fuel txt = COk (inr g) /\ compile (w_engine w) g = COk ps /\
     generated_types camel ids g = COk ds /\ render pkg start ds (p_grammar ps) = Some code /\
     ((out = ""%string \/ out = "-"%string) /\ g_stdout o = Some code /\ g_files o = [] \/
      (out <> ""%string /\ out <> "-"%string) /\ g_stdout o = None /\ (writes out = true -> g_files o = [(out, code)]) /\ (writes out = false -> g_files o = []))) /\
  (gen_code o <> 0 -> g_stdout o = None /\ g_files o = []).
Proof.
  intros w wbnf camel ids render writes file pkg start out depth fuel o H. unfold run_gen, load_test_grammar in H.
  assert (Z : forall e, e <> Generated -> o = mkGen None [] e ->
    ((exists txt g ps ds code, w_read w file = Some txt /\ start <> ""%string /\ build_text (resolving w file) wbnf depth fuel txt = COk (inr g) /\ compile (w_engine w) g = COk ps /\
       generated_types camel ids g = COk ds /\ render pkg start ds (p_grammar ps) = Some code) -> False) ->
    (gen_code o = 0 <-> exists txt g ps ds code, w_read w file = Some txt /\ start <> ""%string /\ build_text (resolving w file) wbnf depth fuel txt = COk (inr g) /\ compile (w_engine w) g = COk ps /\
     generated_types camel ids g = COk ds /\ render pkg start ds (p_grammar ps) = Some code /\
     ((out = ""%string \/ out = "-"%string) /\ g_stdout o = Some code /\ g_files o = [] \/
      (out <> ""%string /\ out <> "-"%string) /\ g_stdout o = None /\ (writes out = true -> g_files o = [(out, code)]) /\ (writes out = false -> g_files o = []))) /\
    (gen_code o <> 0 -> g_stdout o = None /\ g_files o = [])).
  { intros e NE -> F. split; auto. split; [destruct e; [congruence| |]; discriminate|]. intros (txt & g & ps & ds & code & A & B & C & D & E & G & _). exfalso. apply F. exists txt, g, ps, ds, code. auto 6. }
  destruct (w_read w file) as [txt|] eqn:RF.
  2:{ injection H as <-. apply Z with GenPanics; auto; [discriminate|]. intros (? & ? & ? & ? & ? & X & _). discriminate. }
  destruct (String.eqb_spec start "") as [->|NS].
  { injection H as <-. apply Z with GenPanics; auto; [discriminate|]. intros (? & ? & ? & ? & ? & _ & X & _). now apply X. }
  unfold compile_text in H. destruct (build_text (resolving w file) wbnf depth fuel txt) as [[e|g]| |] eqn:BT; cbn [cbind] in H; try discriminate.
  { injection H as <-. apply Z with GenPanics; auto; [discriminate|]. intros (? & ? & ? & ? & ? & X & _ & Y & _). injection X as <-. congruence. }
  2:{ injection H as <-. apply Z with GenPanics; auto; [discriminate|]. intros (? & ? & ? & ? & ? & X & _ & Y & _). injection X as <-. congruence. }
  change (w_engine (resolving w file)) with (w_engine w) in H.
  destruct (compile (w_engine w) g) as [ps| |] eqn:C; cbn [cbind] in H; try discriminate.
  2:{ injection H as <-. apply Z with GenPanics; auto; [discriminate|]. intros (? & ? & ? & ? & ? & X & _ & Y & W & _). injection X as <-. rewrite BT in Y. injection Y as <-. congruence. }
  destruct (generated_types camel ids g) as [ds| |] eqn:T; try discriminate.
  2:{ injection H as <-. apply Z with GenPanics; auto; [discriminate|]. intros (? & ? & ? & ? & ? & X & _ & Y & _ & W & _). injection X as <-. rewrite BT in Y. injection Y as <-. congruence. }
  destruct (render pkg start ds (p_grammar ps)) as [code|] eqn:R.
  2:{ injection H as <-. apply Z with RenderError; auto; [discriminate|]. intros (? & ? & ? & ? & ? & X & _ & Y & V & W & U). injection X as <-. rewrite BT in Y. injection Y as <-.
      rewrite C in V. injection V as <-. rewrite T in W. injection W as <-. congruence. }
  clear Z. split.
  - split; [intros _|intros _; destruct (String.eqb out "" || String.eqb out "-")%bool; injection H as <-; reflexivity].
    exists txt, g, ps, ds, code. do 6 (split; [auto|]). destruct (String.eqb_spec out ""); [|destruct (String.eqb_spec out "-")]; cbn [orb] in H; injection H as <-; [left; auto|left; auto|right].
    split; [auto|]. split; [reflexivity|]. cbn [g_files]. split; intros ->; reflexivity.
  - destruct (String.eqb out "" || String.eqb out "-")%bool; injection H as <-; intros X; now contradiction X.
Qed.
Print Assumptions C85_gen.

(** ** Examples *)
Definition files : list (string * string) := [("data.wbnf", data_text); ("good.txt", "{A:[1,x],B:{}}"); ("bad.txt", "{A:[1,],B:{}}"); ("long.txt", "[1]]");
  ("list.wbnf", "e -> n:>'+'; n -> /{\d+} | '(' e ')';"); ("sum.txt", "1+2+3"); ("empty.wbnf", "");
  ("lib/main.wbnf", ".import part.wbnf; a -> b b;"); ("lib/part.wbnf", "b -> 'x';"); ("part.wbnf", "b -> 'y';"); ("xx.txt", "xx")]%string.
Definition home : world := desk files.
Definition run (fl : flags) : cres outcome := run_test home wbnf_front seqno None fl 9 300 90.
Example C85_example :
  (exists b, run (mkFlags "data.wbnf" "value" "good.txt" true) = COk (mkOutcome [ShowTree "value" (ABranch b)] Success)) /\
  (exists e, run (mkFlags "data.wbnf" "value" "bad.txt" true) = COk (mkOutcome [] (Fails e))) /\
  (exists b s v, run (mkFlags "data.wbnf" "value" "long.txt" false) = COk (mkOutcome [ShowNode (ABranch b)] (Fails (NoParse (EUnconsumed s v))))) /\
  run (mkFlags "data.wbnf" "values" "good.txt" true) = COk (mkOutcome [] (Fails NoStartRule)) /\
  run (mkFlags "data.wbnf" "value" "none.txt" true) = COk (mkOutcome [] (Fails NoInput)) /\
  run (mkFlags "data.wbnf" "" "good.txt" true) = COk (mkOutcome [] (Panics NoStartFlag)) /\
  (exists b, run (mkFlags "" "" "data.wbnf" true) = COk (mkOutcome [ShowTree "grammar" (ABranch b)] Success)) /\
  run (mkFlags "" "" "good.txt" true) = COk (mkOutcome [] (Panics (BadGrammar BadSyntax))) /\
  (exists b, run (mkFlags "lib/main.wbnf" "a" "xx.txt" true) = COk (mkOutcome [ShowTree "a" (ABranch b)] Success)) /\
  (exists b, run (mkFlags "" "" "lib/main.wbnf" false) = COk (mkOutcome [ShowNode (ABranch b)] Success)) /\
  run_gen home wbnf_front to_camel Z.of_nat (fun pkg start _ _ => Some (bs (pkg ++ start)%string)) (fun _ => true) "lib/main.wbnf" "p" "a" "x.go" 9 300 = COk (mkGen None [("x.go"%string, bs "pa")] Generated).
Proof.
  split; [eexists; vm_compute; reflexivity|]. split; [eexists; vm_compute; reflexivity|]. split; [do 3 eexists; vm_compute; reflexivity|].
  split; [vm_compute; reflexivity|]. split; [vm_compute; reflexivity|]. split; [vm_compute; reflexivity|]. split; [eexists; vm_compute; reflexivity|]. split; [vm_compute; reflexivity|].
  split; [eexists; vm_compute; reflexivity|]. split; [eexists; vm_compute; reflexivity|]. vm_compute. reflexivity.
Qed.

(** The hypotheses of [C85_decides] hold for the grammar of the example, for every input. *)
Example C85_decides_example : forall input, exists pf0 o,
  (forall pf, pf0 <= pf -> run_test home wbnf_front seqno (Some input) (mkFlags "data.wbnf" "value" "-" true) 9 300 pf = COk o) /\
  (exit_code o = 0 <-> ford regex_engine (grammar_text data_prods) (TRule "value") input (Some [])).
Proof.
  intros input. destruct C68_example as (FA & P & R & V & B & C & TB & SR & PG & DR & D & A & G & _).
  assert (L : load_text (resolving home "data.wbnf") wbnf_front 9 300 (bs data_text) = COk (inr data_tree)) by (vm_compute; reflexivity).
  assert (IG : given home (Some input) "-" input) by (apply given_stdin; auto).
  assert (RD : readable (p_grammar (parsers_of data_grammar))) by (split; vm_compute; reflexivity).
  assert (SM : smooth_grammar (p_grammar (parsers_of data_grammar))) by (apply smooth_grammar_b_ok; vm_compute; reflexivity).
  assert (CO : coherent (p_grammar (parsers_of data_grammar))) by (apply coherent_b_ok; vm_compute; reflexivity).
  assert (OT : forall t, rule_body [p_grammar (parsers_of data_grammar)] "value" [p_grammar (parsers_of data_grammar)] t -> own_tag t = true).
  { intros t RB. inversion RB as [? ? ? u ? LL AA|? ? ? ? ? LL _]; subst; vm_compute in LL; [|discriminate]. injection LL as <-. inversion AA; subst; reflexivity. }
  exact (C85_decides home wbnf_front seqno (Some input) (mkFlags "data.wbnf" "value" "-" true) 9 300 (bs data_text) input data_tree data_prods data_grammar (parsers_of data_grammar) data_table
    ["pair"; "value"]%string data_graph regex_engine_ok ltac:(discriminate) ltac:(discriminate) eq_refl IG L P R V B C TB SR PG DR D A G RD SM CO ltac:(discriminate) OT).
Qed.

(** ** What does not hold *)
(** The command fails on texts of the grammar: for a list with an associativity the parse succeeds and the conversion panics. *)
Theorem C85_passes_refuted : exists w fl txt input ps v s', f_grammar fl <> ""%string /\ w_read w (f_grammar fl) = Some txt /\ given w None (f_input fl) input /\
  compile_text (resolving w (f_grammar fl)) wbnf_front 9 300 txt = COk (inr ps) /\
  parse_rule (mkConfig (w_engine w) [] None seqno) 90 ps (f_start fl) (whole (f_input fl) input) = (ROk v, s') /\
  run_test w wbnf_front seqno None fl 9 300 90 = COk (mkOutcome [] (Panics Runtime)).
Proof.
  exists home, (mkFlags "list.wbnf" "e" "sum.txt" true). do 5 eexists. split; [discriminate|]. split; [reflexivity|]. split; [constructor; try discriminate; reflexivity|].
  split; [vm_compute; reflexivity|]. split; vm_compute; reflexivity.
Qed.
Print Assumptions C85_passes_refuted.
(** A grammar file with a syntax error need not get a message. *)
Theorem C85_message_refuted : exists w fl, run_test w wbnf_front seqno None fl 9 300 90 = COk (mkOutcome [] (Panics (BadGrammar BadSyntax))) /\
  forall quote show_text grow about about_text trim opaque, exists x,
    rule_fault quote show_text (mkConfig (w_engine w) [] None (w_rnd w)) 300 wbnf_front "grammar" (whole "" []) = Some x /\ w_read w (f_grammar fl) = Some [] /\
    forall n place t, error_text grow about about_text trim opaque n place x <> COk t.
Proof.
  exists home, (mkFlags "empty.wbnf" "e" "sum.txt" true). split; [vm_compute; reflexivity|]. intros quote show_text grow about about_text trim opaque.
  assert (X : exists q s', parse_rule (mkConfig (w_engine home) [] None (w_rnd home)) 300 wbnf_front "grammar" (whole "" []) = (RErr (EParse q), s')) by (do 2 eexists; vm_compute; reflexivity).
  destruct X as (q & s' & X).
  assert (C : compile (w_engine home) wbnf_grammar = COk wbnf_front) by (vm_compute; reflexivity).
  assert (IG : given home None "sum.txt" (bs "1+2+3")) by (apply given_file; [discriminate|discriminate|reflexivity]).
  destruct (C85_syntax_errors quote show_text grow about about_text trim opaque home wbnf_front seqno None (mkFlags "empty.wbnf" "e" "sum.txt" true) 9 300 90 [] (bs "1+2+3") q s'
    C ltac:(discriminate) ltac:(discriminate) eq_refl IG X) as (_ & x & F & N).
  exists x. split; [exact F|]. split; [reflexivity|exact N].
Qed.
Print Assumptions C85_message_refuted.
(** The command gen ends well though it wrote nothing, if the file cannot be written ... *)
Theorem C85_written_refuted : forall code, exists out render writes o, run_gen home wbnf_front to_camel Z.of_nat render writes "data.wbnf" "p" "value" out 9 300 = COk o /\
  (forall pkg start ds g, render pkg start ds g = Some code) /\ gen_code o = 0 /\ g_stdout o = None /\ g_files o = [].
Proof. intros code. exists "x.go"%string, (fun _ _ _ _ => Some code), (fun _ => false). eexists. split; [vm_compute; reflexivity|]. auto. Qed.
Print Assumptions C85_written_refuted.
(** ... and for a start rule that the grammar does not have, where the code names a type that it does not declare. *)
Theorem C85_start_refuted : forall code, exists start g ds, build_text (resolving home "data.wbnf") wbnf_front 9 300 (bs data_text) = COk (inr g) /\ lookup start g = None /\
  generated_types to_camel Z.of_nat g = COk ds /\ ~ In (DType (go_type_name to_camel start)) ds /\
  run_gen home wbnf_front to_camel Z.of_nat (fun _ _ _ _ => Some code) (fun _ => true) "data.wbnf" "p" start "-" 9 300 = COk (mkGen (Some code) [] Generated).
Proof.
  intros code. exists "nope"%string. do 2 eexists. split; [vm_compute; reflexivity|]. split; [reflexivity|]. split; [vm_compute; reflexivity|]. split; [|vm_compute; reflexivity].
  intros H. vm_compute in H. repeat (destruct H as [H|H]; [discriminate|]). exact H.
Qed.
Print Assumptions C85_start_refuted.
