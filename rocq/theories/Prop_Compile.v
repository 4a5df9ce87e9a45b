(** Properties C24 to C28: termination, stacks, map order and panics. *)
From Verif Require Import Base Scanner ScannerSpec ScannerProofs Syntax Engine Resolve Compile Parse Regex RegexProofs WbnfGrammar
  PegSpec TopProofs FlowSpec CutSpec ApiSpec ApiProofs DrawProofs WfSpec WfCheck StackSpec StackProofs ReorderProofs PanicSpec PanicCheck HangSpec HangProofs ChainProofs Demo Prop_Parse.
Local Open Scope nat_scope.

(** C24: a parse with a grammar without stacks ends, on every input ... *)
Theorem C24_well_founded_terminates : forall c g ps, cf_esc c = None -> tame c -> compile (cf_eng c) g = COk ps ->
  no_stack_grammar g = true -> well_founded_grammar (cf_eng c) g ->
  forall r s, in_range s -> exists f0 o, fst o <> RFuel /\ forall f, f0 <= f -> parse_rule c f ps r s = o.
Proof. exact plain_terminates. Qed.
Print Assumptions C24_well_founded_terminates.

Lemma sums_founded : well_founded_grammar regex_engine sums.
Proof. apply (grammar_b_ok [] sums [("e", (1, true)); ("n", (0, true))]%string). vm_compute. reflexivity. Qed.
Example C24_example : compile regex_engine sums = COk (parsers_of sums) /\ no_stack_grammar sums = true /\
  well_founded_grammar (cf_eng call) sums /\ tame call /\ in_range (text "1+(2-3)").
Proof. split; [reflexivity|]. split; [reflexivity|]. split; [exact sums_founded|]. split; [exact call_tame|apply text_range]. Qed.

(** ... and so does one with stacks whose chains of rules are well-founded. *)
Theorem C24_stacks_terminate : forall c g g2 ps, cf_esc c = None -> tame c -> compile (cf_eng c) g = COk ps ->
  same_map g g -> unstacked g g2 -> NoDup (keys g2) -> no_stack_grammar g2 = true -> well_founded_grammar (cf_eng c) g2 ->
  forall r s, in_range s -> exists f0 o, fst o <> RFuel /\ forall f, f0 <= f -> parse_rule c f ps r s = o.
Proof. exact chain_terminates. Qed.
Print Assumptions C24_stacks_terminate.

(** wbnf's own grammar *)
Definition wbnf_parsers : parsers := Eval vm_compute in parsers_of wbnf_grammar.
Lemma wbnf_compiles : compile regex_engine wbnf_grammar = COk wbnf_parsers.
Proof. vm_compute. reflexivity. Qed.
Definition wbnf_chain : grammar := Eval vm_compute in p_grammar wbnf_parsers.
Lemma wbnf_tidy : same_map wbnf_grammar wbnf_grammar.
Proof. apply tidy_grammar_b_ok. vm_compute. reflexivity. Qed.
Lemma wbnf_unstacked : unstacked wbnf_grammar wbnf_chain /\ NoDup (keys wbnf_chain) /\ no_stack_grammar wbnf_chain = true.
Proof.
  assert (N : NoDup (keys wbnf_grammar)) by (apply nodup_b_ok; vm_compute; reflexivity).
  assert (C : clear_names wbnf_grammar) by (apply clear_b_ok; vm_compute; reflexivity).
  destruct (compile_unstacks _ _ _ N C wbnf_compiles) as (U & N2 & _). split; [exact U|]. split; [exact N2|vm_compute; reflexivity].
Qed.
Definition wbnf_ranks : ranking :=
  [(".wrapRE",(0,false));("COMMENT",(0,true));("IDENT",(0,true));("INT",(0,true));("RE",(0,true));("REF",(0,true));
   ("STR",(0,true));("atom",(1,true));("grammar",(3,true));("macrocall",(0,true));("named",(2,true));("pragma",(1,true));
   ("prod",(1,true));("quant",(0,true));("stmt",(2,true));("term",(6,true));("term@1",(5,true));("term@2",(4,true));
   ("term@3",(3,true))]%string.
Definition nest_ranks : ranking := [(".wrapRE",(0,false));("import",(0,true));("macrodef",(0,true))]%string.
Lemma wbnf_founded : well_founded_grammar regex_engine wbnf_chain.
Proof. apply (grammar_b_ok nest_ranks wbnf_chain wbnf_ranks). vm_compute. reflexivity. Qed.

(** Parsing a wbnf grammar text ends, whatever the text. *)
Theorem C24_wbnf_terminates : forall rnd r s, in_range s ->
  exists f0 o, fst o <> RFuel /\ forall f, f0 <= f -> parse_rule (plain_call regex_engine rnd) f wbnf_parsers r s = o.
Proof.
  intros rnd. destruct wbnf_unstacked as (U & N & NS).
  apply (chain_terminates (plain_call regex_engine rnd) wbnf_grammar wbnf_chain wbnf_parsers eq_refl
    ltac:(split; [exact regex_engine_ok|split; intros; discriminate]) wbnf_compiles wbnf_tidy U N NS wbnf_founded).
Qed.
Print Assumptions C24_wbnf_terminates.
Example C24_wbnf_example : leaf_strings (parse_rule call 60 wbnf_parsers "grammar" (text "a -> b:',' c; b -> 'x'* ;"))
  = Some ["a"; "->"; "b"; ":"; "','"; "c"; ";"; "b"; "->"; "'x'"; "*"; ";"]%string.
Proof. vm_compute. reflexivity. Qed.

(** C25: a rule that is an unbounded repetition never ends once its body matches nothing ... *)
Theorem C25_empty_repetition_hangs : forall c g ps refs, cf_esc c = None -> readable g -> hooked_grammar refs g = true ->
  (refs = true -> forall x, re_valid (cf_eng c) (anchor ++ group (quote_meta x)) = true) ->
  compile (cf_eng c) g = COk ps -> forall r t s, repeats g r t -> goes_round (cf_eng c) g t s ->
  forall f, drawn_ok (cf_rnd c) (draws c f ps r s) -> fst (parse_rule c f ps r s) = RFuel.
Proof. exact repetition_hangs. Qed.
Print Assumptions C25_empty_repetition_hangs.

(** ... for example r -> "x"?*, on every text. *)
Definition round : grammar := [("r"%string, TQuant (TQuant (TS (bs "x")) 0 1) 0 0)].
Lemma round_hangs : forall rnd s f, in_range s -> fst (parse_rule (plain_call regex_engine rnd) f (parsers_of round) "r" s) = RFuel.
Proof.
  intros rnd s f R. assert (RD : readable round) by (split; reflexivity).
  rewrite (uncut_rnd regex_engine round (parsers_of round) eq_refl RD eq_refl rnd rnd0).
  pose proof R as (o & i & n & W). pose proof (window_slice _ _ _ _ W) as SL.
  apply (repetition_hangs (plain_call regex_engine rnd0) round (parsers_of round) false eq_refl RD eq_refl ltac:(discriminate) eq_refl
           "r"%string (TQuant (TS (bs "x")) 0 1)).
  - exists (TQuant (TQuant (TS (bs "x")) 0 1) 0 0), 0. split; [reflexivity|constructor; discriminate].
  - eapply (optional_round regex_engine round (bs "x") regex_engine_ok eq_refl eq_refl ltac:(discriminate) _ s); [apply le_n|exact R|unfold shows, sstring; destruct W as [W _]; rewrite W; exact SL].
  - apply ids_drawn, rnd0_ok.
Qed.
Theorem C25_hangs_everywhere_refuted : exists g r, compile regex_engine g = COk (parsers_of g) /\ lookup r g <> None /\
  forall rnd s f, in_range s -> fst (parse_rule (plain_call regex_engine rnd) f (parsers_of g) r s) = RFuel.
Proof. exists round, "r"%string. split; [reflexivity|]. split; [discriminate|exact round_hangs]. Qed.
Print Assumptions C25_hangs_everywhere_refuted.
Example C25_example : readable round /\ hooked_grammar false round = true /\ in_range (text "xxy") /\
  repeats round "r" (TQuant (TS (bs "x")) 0 1) /\ goes_round regex_engine round (TQuant (TS (bs "x")) 0 1) (text "xxy").
Proof.
  split; [split; reflexivity|]. split; [reflexivity|]. split; [apply text_range|]. split.
  - exists (TQuant (TQuant (TS (bs "x")) 0 1) 0 0), 0. split; [reflexivity|constructor; discriminate].
  - eapply (optional_round regex_engine round (bs "x") regex_engine_ok eq_refl eq_refl ltac:(discriminate) _ _ (bs "xxy")); [apply le_n|apply text_range|apply text_shows].
Qed.

(** C26: the compiled grammar has a chain of rules in place of each stack, and everything
    else as before ... *)
Theorem C26_stacks_become_chains : forall E g ps, NoDup (keys g) -> clear_names g -> compile E g = COk ps ->
  unstacked g (p_grammar ps) /\ NoDup (keys (p_grammar ps)) /\
  (forall r ls, lookup r (p_grammar ps) = Some (TStack ls) -> ls = []).
Proof. exact compile_unstacks. Qed.
Print Assumptions C26_stacks_become_chains.

(** ... in which @ is gone ... *)
Theorem C26_no_at_left : forall g g2 r layers i t u, unstacked g g2 -> r <> "@"%string ->
  lookup r g = Some (TStack layers) -> nth_error layers i = Some t -> lookup (level r i) g2 = Some u -> ~ mentions "@" u.
Proof. exact no_at_left. Qed.
Print Assumptions C26_no_at_left.

(** ... there is only one such grammar ... *)
Theorem C26_chains_unique : forall g a b, NoDup (keys g) -> clear_names g -> unstacked g a -> unstacked g b ->
  forall x, lookup x a = lookup x b.
Proof. exact unstacked_fun. Qed.
Print Assumptions C26_chains_unique.

(** ... and the stacks compile and parse exactly like the chains written out. *)
Theorem C26_stacks_are_shorthand : forall E g g2, same_map g g -> unstacked g g2 -> NoDup (keys g2) ->
  (forall ps, compile E g = COk ps ->
     exists ps2, compile E g2 = COk ps2 /\ forall c f r s, parse_rule c f ps r s = parse_rule c f ps2 r s) /\
  (forall ps2, compile E g2 = COk ps2 ->
     exists ps, compile E g = COk ps /\ forall c f r s, parse_rule c f ps r s = parse_rule c f ps2 r s).
Proof. exact stacks_are_sugar. Qed.
Print Assumptions C26_stacks_are_shorthand.

(** sums of products of numbers and sums in brackets *)
Definition calc : grammar :=
  [("e", TStack [TDelim (TRule "@") (TS (bs "+")) NonAssociative false false;
                 TDelim (TRule "@") (TS (bs "*")) NonAssociative false false;
                 TOneof [TRE (bs "\d+"); TSeq [TS (bs "("); TRule "@"; TS (bs ")")]]])]%string.
Definition calc_chain : grammar :=
  [("e", TDelim (TRule "e@1") (TS (bs "+")) NonAssociative false false);
   ("e@1", TDelim (TRule "e@2") (TS (bs "*")) NonAssociative false false);
   ("e@2", TOneof [TRE (bs "\d+"); TSeq [TS (bs "("); TRule "e"; TS (bs ")")]])]%string.
Lemma calc_unstacked : unstacked calc calc_chain.
Proof.
  assert (N : NoDup (keys calc)) by (apply nodup_b_ok; reflexivity).
  assert (C : clear_names calc) by (apply clear_b_ok; reflexivity).
  destruct (compile_unstacks regex_engine calc (parsers_of calc) N C eq_refl) as (U & _). exact U.
Qed.
Example C26_example : same_map calc calc /\ clear_names calc /\ NoDup (keys calc) /\ unstacked calc calc_chain /\
  compile regex_engine calc = COk (parsers_of calc) /\ p_grammar (parsers_of calc) = calc_chain /\
  leaf_strings (parse_rule call 60 (parsers_of calc) "e" (text "1+2*(3+4)")) = Some ["1"; "+"; "2"; "*"; "("; "3"; "+"; "4"; ")"]%string.
Proof.
  split; [apply tidy_grammar_b_ok; reflexivity|]. split; [apply clear_b_ok; reflexivity|]. split; [apply nodup_b_ok; reflexivity|].
  split; [exact calc_unstacked|]. split; [reflexivity|]. split; [reflexivity|vm_compute; reflexivity].
Qed.

(** C27: listing the maps in another order changes nothing. *)
Theorem C27_map_order : forall E g g' ps, same_map g g' -> compile E g = COk ps ->
  exists ps', compile E g' = COk ps' /\ forall c f r s, parse_rule c f ps r s = parse_rule c f ps' r s.
Proof. exact compile_same. Qed.
Print Assumptions C27_map_order.

Definition inner : grammar := [("x", TRE (bs "[a-z]")); ("y", TSeq [TRule "x"; TRule "b"])]%string.
Definition inner' : grammar := [("y", TSeq [TRule "x"; TRule "b"]); ("x", TRE (bs "[a-z]"))]%string.
Definition outer : grammar := [("a", TScoped (TSeq [TRule "y"; TRule "x"]) inner); ("b", TStack [TDelim (TRule "@") (TS (bs ",")) NonAssociative false false; TS (bs "1")])]%string.
Definition outer' : grammar := [("b", TStack [TDelim (TRule "@") (TS (bs ",")) NonAssociative false false; TS (bs "1")]); ("a", TScoped (TSeq [TRule "y"; TRule "x"]) inner')]%string.
Lemma inner_same : same_map inner inner'.
Proof.
  constructor; [apply nodup_b_ok; reflexivity|apply nodup_b_ok; reflexivity|apply clear_b_ok; reflexivity| |].
  - intros r. simpl. destruct (String.eqb r "x"), (String.eqb r "y"); auto; discriminate.
  - intros r t. simpl. destruct (String.eqb_spec r "x"), (String.eqb_spec r "y"); try discriminate; intros L; try congruence; inversion L; subst;
      eexists; (split; [reflexivity|repeat constructor]).
Qed.
Example C27_example : same_map outer outer' /\ compile regex_engine outer = COk (parsers_of outer) /\ outer <> outer' /\
  leaf_strings (parse_rule call 60 (parsers_of outer') "a" (text "p1,1q")) = Some ["p"; "1"; ","; "1"; "q"]%string.
Proof.
  split; [|split; [reflexivity|split; [discriminate|vm_compute; reflexivity]]].
  constructor; [apply nodup_b_ok; reflexivity|apply nodup_b_ok; reflexivity|apply clear_b_ok; reflexivity| |].
  - intros r. simpl. destruct (String.eqb r "a"), (String.eqb r "b"); auto; discriminate.
  - intros r t. simpl. destruct (String.eqb_spec r "a"), (String.eqb_spec r "b"); try discriminate; intros L; try congruence; inversion L; subst;
      eexists; (split; [reflexivity|]).
    + constructor; [repeat constructor|exact inner_same].
    + repeat constructor.
Qed.

(** C28: a rule that is a named reference panics on every input ... *)
Definition unhooked : grammar := [("r", TNamed "n" (TRule "x")); ("x", TS (bs "x"))]%string.
Definition unhooked_cut : grammar := [("r", TCut (TRule "x")); ("x", TS (bs "x"))]%string.
Theorem C28_named_reference_refuted : exists g r, compile regex_engine g = COk (parsers_of g) /\ lookup r g <> None /\
  forall c f s, cf_esc c = None -> 1 <= f -> fst (parse_rule c f (parsers_of g) r s) = RPanic.
Proof.
  exists unhooked, "r"%string. split; [reflexivity|]. split; [discriminate|]. intros c [|f] s NE L; [lia|].
  unfold parse_rule. simpl. rewrite ?NE. reflexivity.
Qed.
Print Assumptions C28_named_reference_refuted.
(** ... as does one that is a cut point around a reference ... *)
Theorem C28_cut_reference_refuted : exists g r, compile regex_engine g = COk (parsers_of g) /\ lookup r g <> None /\
  forall c f s, cf_esc c = None -> 2 <= f -> fst (parse_rule c f (parsers_of g) r s) = RPanic.
Proof.
  exists unhooked_cut, "r"%string. split; [reflexivity|]. split; [discriminate|]. intros c [|[|f]] s NE L; [lia|lia|].
  unfold parse_rule. simpl. unfold with_escape. rewrite ?NE. simpl. reflexivity.
Qed.
Print Assumptions C28_cut_reference_refuted.

(** ... but a grammar whose references are defined and hooked up never panics, if its patterns
    match at the cursor and have at most one capture group of their own ... *)
Theorem C28_callable_never_panics : forall c g ps, cf_esc c = None -> tame c -> compile (cf_eng c) g = COk ps ->
  no_stack_grammar g = true -> NoDup (keys g) -> callable_grammar g = true -> patterns_grammar (well_grouped (cf_eng c)) g ->
  forall f r s, in_range s -> lookup r g <> None -> fst (parse_rule c f ps r s) <> RPanic.
Proof. exact plain_no_panic. Qed.
Print Assumptions C28_callable_never_panics.
Example C28_example : compile regex_engine sums = COk (parsers_of sums) /\ no_stack_grammar sums = true /\ NoDup (keys sums) /\
  callable_grammar sums = true /\ patterns_grammar (well_grouped regex_engine) sums /\ callable_grammar unhooked = false /\
  callable_grammar unhooked_cut = false.
Proof.
  split; [reflexivity|]. split; [reflexivity|]. split; [apply nodup_b_ok; reflexivity|]. split; [reflexivity|].
  split; [apply patterns_grammar_b_ok; vm_compute; reflexivity|split; reflexivity].
Qed.

(** ... nor does one whose stacks give such a grammar ... *)
Theorem C28_stacks_never_panic : forall c g g2 ps, cf_esc c = None -> tame c -> compile (cf_eng c) g = COk ps ->
  same_map g g -> unstacked g g2 -> NoDup (keys g2) -> no_stack_grammar g2 = true ->
  callable_grammar g2 = true -> patterns_grammar (well_grouped (cf_eng c)) g2 ->
  forall f r s, in_range s -> lookup r g <> None -> fst (parse_rule c f ps r s) <> RPanic.
Proof. exact chain_no_panic. Qed.
Print Assumptions C28_stacks_never_panic.

(** ... such as wbnf's own: parsing any grammar text gives a tree or an error. *)
Theorem C28_wbnf_never_panics : forall rnd f r s, in_range s -> lookup r wbnf_grammar <> None ->
  fst (parse_rule (plain_call regex_engine rnd) f wbnf_parsers r s) <> RPanic.
Proof.
  intros rnd f. destruct wbnf_unstacked as (U & N & NS).
  apply (chain_no_panic (plain_call regex_engine rnd) wbnf_grammar wbnf_chain wbnf_parsers eq_refl
    ltac:(split; [exact regex_engine_ok|split; intros; discriminate]) wbnf_compiles wbnf_tidy U N NS eq_refl).
  apply patterns_grammar_b_ok. vm_compute. reflexivity.
Qed.
Print Assumptions C28_wbnf_never_panics.
Example C28_wbnf_example : lookup "grammar"%string wbnf_grammar <> None /\
  exists e s', parse_rule call 60 wbnf_parsers "grammar" (text "a -> ;") = (RErr e, s').
Proof. split; [discriminate|]. do 2 eexists. vm_compute. reflexivity. Qed.

(** C47: the parser follows the lexically scoped reading of the grammar ([means] looks a name
    up in the grammars around its occurrence, innermost first), where the rules of nested
    grammars are aliases or do not end in a bare reference ([readable]) ... *)
Theorem C47_lexical_scope_partial : forall c, cf_esc c = None -> forall g ps, compile (cf_eng c) g = COk ps -> readable g ->
  forall f r s, drawn_ok (cf_rnd c) (draws c f ps r s) ->
  match parse_rule c f ps r s with
  | (ROk v, s') => means (cf_eng c) g r s (Succ v s') /\ shows s' []
  | (RErr (EUnconsumed s1 v), s') => s1 = s' /\ means (cf_eng c) g r s (Succ v s') /\ exists t, shows s' t /\ t <> []
  | (RErr e, _) => is_plain_err e /\ means (cf_eng c) g r s Fail \/ is_fatal_err e /\ means (cf_eng c) g r s Abort
  | _ => True
  end.
Proof. intros c NE g ps C RD. exact (run_sound_drawn c NE g ps (readable_env _ _ _ C RD)). Qed.
Print Assumptions C47_lexical_scope_partial.
Definition no_at (g : grammar) : grammar := map (fun kv => match snd kv with TStack ts => (fst kv, TS (bs "1")) | _ => kv end) g.
Example C47_example : readable (no_at outer) /\ compile regex_engine (no_at outer) = COk (parsers_of (no_at outer)) /\
  leaf_strings (parse_rule call 60 (parsers_of (no_at outer)) "a" (text "p1q")) = Some ["p"; "1"; "q"]%string.
Proof. split; [split; reflexivity|]. split; [reflexivity|vm_compute; reflexivity]. Qed.

(** ... but a nested rule that is a named reference is looked up where the nested grammar is
    used: here y means "1" by the text of the grammar, and the parser takes it for "2". *)
Definition escaping : grammar :=
  [("a", TSeq [TScoped (TRule "x") [("x", TNamed "n" (TRule "y")); ("y", TS (bs "1"))]; TS (bs "!")]); ("y", TS (bs "2"))]%string.
Theorem C47_nested_rule_escapes_refuted : exists g r t, compile regex_engine g = COk (parsers_of g) /\
  means regex_engine g r (text t) Fail /\
  (forall rnd f, 50 <= f -> exists v s', parse_rule (plain_call regex_engine rnd) f (parsers_of g) r (text t) = (ROk v, s')).
Proof.
  exists escaping, "a"%string, "2!"%string. split; [reflexivity|]. split.
  - eapply P_rule; [eapply rb_here; [reflexivity|constructor; discriminate]|]. apply P_seq.
    apply (PS_fail regex_engine _ _ false). apply P_scoped.
    eapply P_rule; [eapply rb_here; [reflexivity|constructor; discriminate]|]. apply P_named.
    eapply P_rule; [eapply rb_here; [reflexivity|constructor; discriminate]|].
    eapply P_lit; [reflexivity|]. eapply tok_fail; vm_compute; reflexivity.
  - intros rnd f L. assert (Q : exists v s', parse_rule (plain_call regex_engine rnd) 50 (parsers_of escaping) "a" (text "2!") = (ROk v, s')).
    { do 2 eexists. vm_compute. reflexivity. }
    destruct Q as (v & s' & Q). exists v, s'. eapply (parse_rule_more (parsers_of escaping) _ 50 f); eauto. discriminate.
Qed.
Print Assumptions C47_nested_rule_escapes_refuted.
