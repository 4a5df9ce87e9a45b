(** Property C45: the Go code that is generated for a grammar. *)
From Verif Require Import CodegenProofs.
From Verif Require Import Base Scanner Syntax Engine Regex Resolve Compile Parse PegSpec StackSpec StackCut WbnfGrammar WbnfCode Demo.
From Verif Require Import GoSpec CodegenSpec Codegen CodegenTop.

(** The generated expression is Go, it is read as a grammar, and that grammar compiles to parsers with the same results as the
    compiled grammar that was printed. *)
Theorem C45_generated : forall E g ps, writable_grammar g -> simple_grammar g -> steady_grammar g -> compile E g = COk ps ->
  exists g', go_grammar (generated_code ps) g' /\
  exists ps', compile E g' = COk ps' /\ forall c f r s, parse_rule c f ps' r s = parse_rule c f ps r s.
Proof.
  intros E g ps W Q C OK. apply (generated_simple E g ps W C OK) in Q as (g' & R). exists g'. split; auto. eapply generated_parses; eauto.
Qed.
Print Assumptions C45_generated.
(** The quantifiers that are not ?, * or + are written as [parser.Quant] with a field without and two with a name, which is not Go:
    the generated code is read as a grammar just when there are none. *)
Theorem C45_quantifiers : forall E g ps, writable_grammar g -> steady_grammar g -> compile E g = COk ps ->
  ((exists g', go_grammar (generated_code ps) g') <-> simple_grammar g).
Proof. exact generated_simple. Qed.
Print Assumptions C45_quantifiers.

(** The rules of the grammar that is read: those that are not stacks are as they were, but for the order of nested grammars
    and the wrappers these inherit. *)
Theorem C45_rules : forall E g ps g' r t, writable_grammar g -> steady_grammar g -> compile E g = COk ps -> go_grammar (generated_code ps) g' ->
  lookup r g = Some t -> (forall l ls, t <> TStack (l :: ls)) ->
  exists u t', inherits (lookup WrapRE g) t u /\ reordered u t' /\ lookup r g' = Some t'.
Proof. exact (fun E g ps g' r t W C OK => generated_rule E g ps W C OK g' r t). Qed.
Print Assumptions C45_rules.
(** Stacks are put together again, without their cut points. *)
Theorem C45_stacks : forall E g ps g' r ls l, writable_grammar g -> steady_grammar g -> compile E g = COk ps -> go_grammar (generated_code ps) g' ->
  lookup r g = Some (TStack (ls ++ [l])) -> ls <> [] -> ~ mentions "@" l -> lookup r g' = Some (TStack (map uncut (ls ++ [l]))).
Proof. exact (fun E g ps g' r ls l W C OK => generated_stack E g ps W C OK g' r ls l). Qed.
Print Assumptions C45_stacks.
(** There are no others. *)
Theorem C45_no_more : forall E g ps g' r, writable_grammar g -> steady_grammar g -> compile E g = COk ps -> go_grammar (generated_code ps) g' ->
  lookup r g = None -> lookup r g' = None.
Proof. exact (fun E g ps g' r W C OK => generated_only E g ps W C OK g' r). Qed.
Print Assumptions C45_no_more.

Definition demo : grammar :=
  [(".wrapRE", TRE (bs "\s*()\s*"));
   ("e", TStack [TDelim (TRule "@") (TNamed "op" (TS (bs "+"))) LeftToRight false true;
                 TCut (TSeq [TS (bs "`"); TRule "@"; TQuant (TRule "n") 0 0]);
                 TOneof [TRule "n"; TSeq [TS (bs "("); TRule "e"; TS (bs ")")]]]);
   ("n", TScoped (TSeq [TRule "d"; TREF "d" (Some (bs """"))])
           [("d", TOneof [TRE (bs "\d"); TLookAhead (TS [nl]); TExtRef "x"])])]%string.
Definition demo_parsers : parsers := Eval vm_compute in parsers_of demo.
Example C45_demo : writable_grammar demo /\ simple_grammar demo /\ steady_grammar demo /\ compile regex_engine demo = COk demo_parsers.
Proof.
  assert (F : fit_grammar_b demo = true) by (vm_compute; reflexivity). destruct (fit_grammar_b_ok _ F) as [W C].
  split; [exact W|]. split; [apply quants_grammar_b_ok; vm_compute; reflexivity|]. split; [exact C|]. vm_compute. reflexivity.
Qed.
Example C45_demo_code : generated_code demo_parsers = bs
"parser.Grammar{"".wrapRE"":parser.RE(`\s*()\s*`),
""e"":parser.Stack{parser.Delim{Term: parser.At,
Sep: parser.Eq(`op`,
parser.S(`+`)),
CanEndWithSep: true,
Assoc: parser.LeftToRight},
parser.Seq{parser.S(``+""`""+``),
parser.At,
parser.Any(parser.Rule(`n`))},
parser.Oneof{parser.Rule(`n`),
parser.Seq{parser.S(`(`),
parser.Rule(`e`),
parser.S(`)`)}}},
""n"":parser.ScopedGrammar{Term: parser.Seq{parser.Rule(`d`),
parser.REF{Ident: `d`,
Default: parser.S(`""`)}},
Grammar: parser.Grammar{"".wrapRE"":parser.RE(`\s*()\s*`),
""d"":parser.Oneof{parser.RE(`\d`),
parser.LookAhead{parser.S(`
`)},
parser.ExtRef(`x`)}}}}".
Proof. vm_compute. reflexivity. Qed.
(** The last layer does not mention @, so that [C45_stacks] applies; the nested grammar inherits the wrapper. *)
Example C45_demo_read : read_grammar (generated_code demo_parsers) = Some
  [(".wrapRE", TRE (bs "\s*()\s*"));
   ("e", TStack [TDelim (TRule "@") (TNamed "op" (TS (bs "+"))) LeftToRight false true;
                 TSeq [TS (bs "`"); TRule "@"; TQuant (TRule "n") 0 0];
                 TOneof [TRule "n"; TSeq [TS (bs "("); TRule "e"; TS (bs ")")]]]);
   ("n", TScoped (TSeq [TRule "d"; TREF "d" (Some (bs """"))])
           [(".wrapRE", TRE (bs "\s*()\s*")); ("d", TOneof [TRE (bs "\d"); TLookAhead (TS [nl]); TExtRef "x"])])]%string.
Proof. vm_compute. reflexivity. Qed.

(** The shipped code for the grammar of grammars is read as the model's transcription of it, and generating it again gives the
    same tokens. *)
Example C45_wbnf : writable_grammar wbnf_grammar /\ simple_grammar wbnf_grammar /\ steady_grammar wbnf_grammar /\ read_grammar wbnf_code = Some wbnf_grammar /\
  tokens (Gap false) (generated_code (parsers_of wbnf_grammar)) = tokens (Gap false) wbnf_code /\ tokens (Gap false) wbnf_code <> None.
Proof.
  assert (F : fit_grammar_b wbnf_grammar = true) by (vm_compute; reflexivity). destruct (fit_grammar_b_ok _ F) as [W C].
  split; [exact W|]. split; [apply quants_grammar_b_ok; vm_compute; reflexivity|]. split; [exact C|]. split; [vm_compute; reflexivity|]. split; [vm_compute; reflexivity|vm_compute; discriminate].
Qed.

(** A quantifier with limits, in the separator of a nested rule. *)
Definition counted : grammar :=
  [("a", TScoped (TDelim (TRule "b") (TQuant (TS (bs ",")) 1 1) NonAssociative false false) [("b", TQuant (TS (bs "x")) 0 0)])]%string.
Theorem C45_quantifiers_refuted : exists g ps, writable_grammar g /\ steady_grammar g /\ compile regex_engine g = COk ps /\ forall g', ~ go_grammar (generated_code ps) g'.
Proof.
  exists counted. assert (F : fit_grammar_b counted = true) by (vm_compute; reflexivity). destruct (fit_grammar_b_ok _ F) as [W C].
  assert (K : exists ps, compile regex_engine counted = COk ps) by (eexists; vm_compute; reflexivity). destruct K as (ps & K).
  exists ps. split; [exact W|]. split; [exact C|]. split; [exact K|]. intros g' R.
  assert (Q : simple_grammar counted) by (apply (C45_quantifiers regex_engine counted ps W C K); eauto).
  apply quants_grammar_b_ok in Q. vm_compute in Q. discriminate.
Qed.
Print Assumptions C45_quantifiers_refuted.
Example C45_quantifier_code : generated [("a"%string, TQuant (TS (bs "x")) 2 3)] = bs
"parser.Grammar{""a"":parser.Quant{parser.S(`x`),
Min: 2,
Max: 3}}".
Proof. vm_compute. reflexivity. Qed.
(** Raw strings drop carriage returns: the grammar that is read parses other texts. *)
Theorem C45_returns_refuted : exists g ps g' ps' s, compile regex_engine g = COk ps /\ go_grammar (generated_code ps) g' /\ compile regex_engine g' = COk ps' /\
  (exists t s', parse_rule call 9 ps "a" s = (ROk t, s')) /\ ~ exists t s', parse_rule call 9 ps' "a" s = (ROk t, s').
Proof.
  exists [("a"%string, TS (bs "x" ++ [cr] ++ bs "y"))]. eexists. exists [("a"%string, TS (bs "xy"))]. eexists. exists (let b := bs "x" ++ [cr] ++ bs "y" in mkScanner (Some (mkSource b "")) 0 (blen b)).
  split; [vm_compute; reflexivity|]. split; [|split; [vm_compute; reflexivity|split]].
  - split; [|vm_compute; reflexivity]. cbv [generated_code generated make_grammar_string]. vm_compute. repeat (apply utf8_1; [cbv; split; repeat constructor|]). apply utf8_nil.
  - eexists. eexists. vm_compute. reflexivity.
  - intros (t & s' & H). vm_compute in H. discriminate.
Qed.
Print Assumptions C45_returns_refuted.
Lemma utf8_small : forall s, utf8 s -> forall c, In c s -> nat_of_ascii c >= 245 -> False.
Proof.
  intros s U. induction U; intros x I G; cbn [In] in I; [auto|..];
    repeat (destruct I as [<-|I]; [unfold tail_byte in *; lia|]); eauto.
Qed.
(** Bytes that are not UTF-8 are not Go either. *)
Theorem C45_bytes_refuted : exists g ps, compile regex_engine g = COk ps /\ steady_grammar g /\ forall g', ~ go_grammar (generated_code ps) g'.
Proof.
  exists [("a"%string, TS ["255"%char])]. eexists. split; [vm_compute; reflexivity|]. split.
  - constructor. constructor; [|constructor]. split; [discriminate|]. constructor.
  - intros g' [U _]. apply (utf8_small _ U "255"%char); [|repeat constructor]. vm_compute. tauto.
Qed.
Print Assumptions C45_bytes_refuted.
