(** Property C83: errors print what was expected and where. *)
From Verif Require Import Base Scanner ScannerSpec Syntax Engine Resolve Compile Parse Regex PegSpec RegexProofs Demo WbnfGrammar FlowSpec Gotree GotreeSpec FrontDemo
  Report ReportSpec ReportProofs ReportMade ReportLines.
Local Open Scope list_scope.

(** C83: a parse returns an error exactly if there is a report, which is that of the error ... *)
Theorem C83_explains : forall quote show c fuel ps rule inp,
  match fst (parse_rule c fuel ps rule inp) with
  | RErr e => exists x, rule_fault quote show c fuel ps rule inp = Some x /\ belongs x e
  | _ => rule_fault quote show c fuel ps rule inp = None
  end.
Proof. exact rule_agrees. Qed.
Print Assumptions C83_explains.
(** ... and made of the errors of the parser alone if there are neither externals nor escapes. *)
Theorem C83_own : forall quote show c fuel ps rule inp x, alone c -> rule_fault quote show c fuel ps rule inp = Some x -> ~ part FOther x.
Proof.
  intros quote show c fuel ps rule inp x [A B] H P. apply (made_foreign False True quote c (fun _ _ => True) x); [|exact P].
  eapply rule_made with (5 := H); auto.
  - intros s fn L. rewrite A in L. discriminate.
  - intros e E. congruence.
  - apply Forall_forall. intros kv _. now apply calm_all.
Qed.
Print Assumptions C83_own.

(** A report prints if and only if no error in it is its own cause, and then in one way, whatever the fuel; all scanners must be readable, as they are. *)
Theorem C83_prints : forall grow about about_text trim opaque place x, legible x ->
  (circular x -> forall n, error_text grow about about_text trim opaque n place x = CDiv) /\
  (~ circular x -> exists n t, forall m, n <= m -> error_text grow about about_text trim opaque m place x = COk t).
Proof.
  intros grow about about_text trim opaque place x L. split; [intros C n; now apply circular_diverges|]. intros C.
  destruct (prints grow about about_text trim opaque (depth x) place x (le_n _) C L) as (t & H). exists (depth x), t. intros m LE. eapply more_fuel; eauto.
Qed.
Print Assumptions C83_prints.
Theorem C83_readable : forall quote show c fuel ps rule inp x, tame c -> in_range inp -> rule_fault quote show c fuel ps rule inp = Some x -> legible x.
Proof. exact rule_legible. Qed.
Print Assumptions C83_readable.

(** So all errors print for grammars in which no repetition must find something ... *)
Theorem C83_undemanding : forall quote show grow about about_text trim opaque c E g ps fuel rule inp x,
  compile E g = COk ps -> no_stack_grammar (p_grammar ps) = true -> undemanding_grammar (p_grammar ps) -> tame c -> in_range inp ->
  rule_fault quote show c fuel ps rule inp = Some x -> exists n t, error_text grow about about_text trim opaque n [] x = COk t.
Proof.
  intros quote show grow about about_text trim opaque c E g ps fuel rule inp x C N U T R H.
  destruct (C83_prints grow about about_text trim opaque [] x) as [_ P]; [eapply C83_readable; eauto|]. destruct P as (n & t & P).
  - intros X. apply (made_circular True False quote c literal_regexp x); auto. eapply rule_made with (5 := H); auto.
    + intros w y re W. exists w, re. auto.
    + eapply compiled_calm; eauto. intros r t I. eapply undemanding_mild, U; eauto.
  - exists n, t. apply P. auto.
Qed.
Print Assumptions C83_undemanding.
(** ... but no plain error of a rule that is a repetition ever prints: it calls itself for its own text. *)
Theorem C83_repetition : forall quote show grow about about_text trim opaque c E g ps fuel r u mn mx inp q inp',
  compile E g = COk ps -> lookup r (p_grammar ps) = Some (TQuant u mn mx) -> cf_esc c = None ->
  parse_rule c fuel ps r inp = (RErr (EParse q), inp') ->
  exists x, rule_fault quote show c fuel ps r inp = Some x /\ forall n place t, error_text grow about about_text trim opaque n place x <> COk t.
Proof.
  intros quote show grow about about_text trim opaque c E g ps fuel r u mn mx inp q inp' C L NE H. destruct (compiled_repetition _ _ _ _ _ _ _ C L) as (p & K).
  destruct (repetition_circular quote show _ _ _ _ _ _ _ _ _ _ _ NE K H) as (x & A & B). exists x. split; auto. intros n place t. now apply circular_never.
Qed.
Print Assumptions C83_repetition.
(** Such a rule is the first of the grammar of grammars: if a text does not begin with a statement then the error never prints. *)
Theorem C83_grammars : forall quote show grow about about_text trim opaque c E ps fuel inp q inp',
  compile E wbnf_grammar = COk ps -> cf_esc c = None -> parse_rule c fuel ps "grammar" inp = (RErr (EParse q), inp') ->
  exists x, rule_fault quote show c fuel ps "grammar" inp = Some x /\ forall n place t, error_text grow about about_text trim opaque n place x <> COk t.
Proof.
  intros quote show grow about about_text trim opaque c E ps fuel inp q inp' C NE H.
  assert (L : exists u mn mx, lookup "grammar" (p_grammar ps) = Some (TQuant u mn mx)).
  { unfold compile in C. destruct (resolve_stacks wbnf_grammar) as [g1| |] eqn:R; try discriminate. cbn [cbind] in C.
    destruct (compile_resolved E g1); try discriminate. injection C as <-. cbn [p_grammar]. vm_compute in R. injection R as <-. do 3 eexists. reflexivity. }
  destruct L as (u & mn & mx & L). eapply C83_repetition; eauto.
Qed.
Print Assumptions C83_grammars.

(** Reports go down to the reasons: each error in them has another error as its cause, or is a token that is not where it was looked for, with
    what the token is, or one of the few others. *)
Theorem C83_reasons : forall quote show c E g ps fuel r inp x, compile E g = COk ps -> no_stack_grammar (p_grammar ps) = true ->
  rule_fault quote show c fuel ps r inp = Some x ->
  forall rule msg causes, part (FParse rule msg causes) x -> reason quote (cf_eng c) literal_regexp msg causes.
Proof.
  intros quote show c E g ps fuel r inp x C N H rule msg causes P. apply (made_reason True True quote c literal_regexp x) with (rule := rule); auto.
  eapply rule_made with (5 := H); auto.
  - intros w y re W. exists w, re. auto.
  - eapply compiled_calm; eauto. intros k t _. now apply demand_mild.
Qed.
Print Assumptions C83_reasons.
(** A plain error of a choice has the errors of all options, that of a sequence the one of its part that failed. *)
Theorem C83_choice : forall quote show c E g ps fuel r ts inp q inp', compile E g = COk ps -> lookup r (p_grammar ps) = Some (TOneof ts) -> cf_esc c = None ->
  parse_rule c fuel ps r inp = (RErr (EParse q), inp') ->
  exists xs, length xs = length ts /\ rule_fault quote show c fuel ps r inp =
    Some (FParse r (bs "None of the available options could be satisfied") (map CErr xs ++ [CCalls])).
Proof. exact choice_report. Qed.
Print Assumptions C83_choice.
Theorem C83_sequence : forall quote show c E g ps fuel r ts inp q inp', compile E g = COk ps -> lookup r (p_grammar ps) = Some (TSeq ts) -> cf_esc c = None ->
  parse_rule c fuel ps r inp = (RErr (EParse q), inp') ->
  exists x, rule_fault quote show c fuel ps r inp = Some (FParse r (bs "could not complete sequence") [CErr x; CCalls]).
Proof. exact sequence_report. Qed.
Print Assumptions C83_sequence.

(** A printed report names every rule that failed and everything that was expected, each at the ends of its lines. *)
Theorem C83_names : forall grow about about_text trim opaque n place x t, error_text grow about about_text trim opaque n place x = COk t ->
  (forall rule msg cs l, part (FParse rule msg cs) x -> line_of l (bs "rule(" ++ bs rule ++ bs ") - " ++ msg) -> ending l t) /\
  (forall w l, mentioned (CExpect w) x -> line_of l (bs "expect: " ++ about_text w) -> ending l t).
Proof.
  intros grow about about_text trim opaque n place x t H. split; [intros rule msg cs l P; eapply text_rules; eauto|intros w l M; eapply text_expects; eauto].
Qed.
Print Assumptions C83_names.
(** What it shows as the actual text starts where the expected one was looked for, or before. *)
Theorem C83_actual : forall quote show c fuel ps rule inp x failed_at input, tame c -> in_range inp ->
  rule_fault quote show c fuel ps rule inp = Some x -> mentioned (CActual failed_at input) x -> exists s, input = Some s /\ forward s failed_at.
Proof. intros. eapply rule_placed; eauto. Qed.
Print Assumptions C83_actual.

(** Examples. *)
Definition cfg : config := mkConfig regex_engine [] None (fun k => Z.of_nat k).
Definition report (g : grammar) (rule x : string) : option fault := rule_fault (fun x => x) (fun _ => []) cfg 300 (parsers_of g) rule (new_scanner (bs x)).
Definition show_report (x : fault) : cres bytes :=
  error_text (fun n => 2 * n) (fun _ => []) (fun b => b) (fun b => b) (fun _ => bs "calls") 9 [] x.
(** a -> b "z";  b -> "x" "y"; *)
Definition nested : grammar := [("a"%string, TSeq [TRule "b"; TS (bs "z")]); ("b"%string, TSeq [TS (bs "x"); TS (bs "y")])].

(** What was expected after an x is y, and what stands there is z; but the report shows xz, since the sequences have put their input back. *)
Theorem C83_actual_refuted : exists x s,
  report nested "a" "xz" = Some x /\ mentioned (CExpect (bs "y")) x /\ mentioned (CActual s (Some (new_scanner (bs "xz")))) x /\ sstring s = Some (bs "z") /\
  show_report x = COk (concat (map (fun l => nl :: bs l) ["parse failed"; "└── rule(a) - could not complete sequence"; "    ├── "; "    │   parse failed";
    "    │   └── rule(b) - could not complete sequence"; "    │       ├── "; "    │       │   parse failed"; "    │       │   └── rule() - ";
    "    │       │       ├── expect: y"; "    │       │       ├── actual: xz"; "    │       │       └── calls"; "    │       │   "; "    │       └── calls"; "    │   "; "    └── calls"; ""]%string)).
Proof.
  destruct (report nested "a" "xz") as [x|] eqn:E; [|vm_compute in E; discriminate]. vm_compute in E. injection E as <-.
  eexists. eexists. split; [reflexivity|]. repeat split; try (vm_compute; reflexivity).
  - eapply mentioned_below; [left; reflexivity|]. eapply mentioned_below; [left; reflexivity|]. apply mentioned_here. left. reflexivity.
  - eapply mentioned_below; [left; reflexivity|]. eapply mentioned_below; [left; reflexivity|]. apply mentioned_here. right. left. reflexivity.
  - vm_compute. reflexivity.
Qed.
Print Assumptions C83_actual_refuted.
(** The error for an empty grammar text never prints. *)
Theorem C83_prints_refuted : exists x, rule_fault (fun x => x) (fun _ => []) cfg 300 wbnf_front "grammar" (new_scanner []) = Some x /\
  (exists q s, parse_rule cfg 300 wbnf_front "grammar" (new_scanner []) = (RErr (EParse q), s)) /\ legible x /\
  forall grow about about_text trim opaque n place, error_text grow about about_text trim opaque n place x = CDiv.
Proof.
  eexists. split; [vm_compute; reflexivity|]. split; [do 2 eexists; vm_compute; reflexivity|].
  match goal with |- legible ?x /\ _ => assert (L : legible x) end.
  { intros a o M. apply mentioned_inv in M as [[X|[X|[]]]|(x & [X|[X|[]]] & _)]; discriminate. }
  split; auto. intros grow about about_text trim opaque n place. apply circular_diverges; auto. apply mentioned_here. left. reflexivity.
Qed.
Print Assumptions C83_prints_refuted.

Example C83_example :
  (exists ps, compile regex_engine nested = COk ps /\ no_stack_grammar (p_grammar ps) = true /\ undemanding_grammar (p_grammar ps)) /\ alone cfg /\ tame cfg /\ in_range (new_scanner (bs "xz")) /\
  (exists ps, compile regex_engine wbnf_grammar = COk ps).
Proof.
  split; [|split; [split; reflexivity|split; [split; [exact regex_engine_ok|split; intros; discriminate]|split; [exists (mkSource (bs "xz") ""%string), 0, 2; repeat split; cbn; lia|]]]].
  - eexists. split; [vm_compute; reflexivity|]. split; [reflexivity|]. intros r t I. cbn in I. destruct I as [I|[I|[]]]; injection I as <- <-; cbn; auto.
  - destruct (compile regex_engine wbnf_grammar) as [ps| |] eqn:E; [eauto|vm_compute in E; discriminate|vm_compute in E; discriminate].
Qed.
(** a -> b | "z";  b -> "x" "y"; fails on xz as a choice and as a sequence. *)
Definition chosen : grammar := [("a"%string, TOneof [TRule "b"; TS (bs "z")]); ("b"%string, TSeq [TS (bs "x"); TS (bs "y")])].
Example C83_choice_example : exists ps ts us, compile regex_engine chosen = COk ps /\ no_stack_grammar (p_grammar ps) = true /\
  lookup "a" (p_grammar ps) = Some (TOneof ts) /\ lookup "b" (p_grammar ps) = Some (TSeq us) /\
  (exists q s, parse_rule cfg 300 ps "a" (new_scanner (bs "xz")) = (RErr (EParse q), s)) /\
  (exists q s, parse_rule cfg 300 ps "b" (new_scanner (bs "xz")) = (RErr (EParse q), s)).
Proof.
  do 3 eexists. split; [vm_compute; reflexivity|]. split; [reflexivity|]. split; [reflexivity|]. split; [reflexivity|].
  split; do 2 eexists; vm_compute; reflexivity.
Qed.
