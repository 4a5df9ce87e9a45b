(** Properties C51 and C52: what the acceptance of a grammar text guarantees. *)
From Verif Require Import Base Scanner ScannerSpec Syntax Engine Resolve Compile Parse Regex Demo ApiSpec StackSpec WbnfGrammar Ast WbnfAst Walker Build
  Recursion Validate Front FrontSpec FrontProofs FrontDemo FrontCheck RefsSpec RefsProofs ChainProofs CompilesSpec CompilesProofs.

(** C51: in the grammar built from an accepted text without macros and nested grammars, every rule that is mentioned
    is defined, unless it is @ ... *)
Theorem C51_references_defined : forall E rt fuel n fuel' g, plain_tree n ->
  validate E rt fuel n = COk [] -> new_from_ast fuel' n = COk g ->
  forall r t x, lookup r g = Some t -> mentions x t -> x = "@"%string \/ In x (keys g).
Proof. exact accepted_refs. Qed.
Print Assumptions C51_references_defined.

(** ... and no production is lost: they have different names, and each of them is a rule. *)
Theorem C51_definitions_kept : forall E rt fuel n fuel' g, plain_tree n ->
  validate E rt fuel n = COk [] -> new_from_ast fuel' n = COk g ->
  NoDup (keys g) /\ Forall2 (fun p x => string_of (one "IDENT" p) = COk x) (productions n) (keys g).
Proof. exact accepted_definitions. Qed.
Print Assumptions C51_definitions_kept.

Definition parsed (x : string) : anode := match front_ast 300 x with COk (inr n) => n | _ => ABranch [] end.
Definition built (x : string) : grammar := match new_from_ast 300 (parsed x) with COk g => g | _ => [] end.
Definition sum_text : string := "sum -> @:'+' > num; num -> /{\d+} | '(' sum ')';".
Example C51_example : plain_tree (parsed sum_text) /\
  validate regex_engine plain_runtime 300 (parsed sum_text) = COk [] /\
  new_from_ast 300 (parsed sum_text) = COk (built sum_text) /\ keys (built sum_text) = ["sum"; "num"]%string.
Proof. split; [apply plain_b_ok; vm_compute; reflexivity|]. repeat split; vm_compute; reflexivity. Qed.

(** Macro bodies and nested grammars are not looked at: accepted texts that refer to a rule that does not exist, and whose
    parsers panic. *)
Definition dangling (x : string) : Prop :=
  exists g r, (forall rt, runtime_ok rt -> build_text (with_runtime rt (desk [])) wbnf_front 9 300 (bs x) = COk (inr g)) /\
    compile regex_engine g = COk (parsers_of g) /\
    exists y, fst (parse_rule (mkConfig regex_engine [] None seqno) 300 (parsers_of g) r (text y)) = RPanic.
Definition macro_text : string := ".macro m(x) { x zz } a -> %!m('1');".
Definition nested_text : string := "a -> b {b -> 'x' zz;};".
Theorem C51_macro_bodies_refuted : dangling macro_text.
Proof.
  assert (A : accepted_b (desk []) wbnf_front 9 300 (bs macro_text) [] = Some (built macro_text)) by (vm_compute; reflexivity).
  exists (built macro_text), "a"%string. split; [exact (accepted_b_ok _ _ _ _ _ _ _ A)|].
  split; [vm_compute; reflexivity|]. exists "1"%string. vm_compute. reflexivity.
Qed.
Print Assumptions C51_macro_bodies_refuted.
Theorem C51_nested_grammars_refuted : dangling nested_text.
Proof.
  assert (A : accepted_b (desk []) wbnf_front 9 300 (bs nested_text) [("a", 1)]%string = Some (built nested_text)) by (vm_compute; reflexivity).
  exists (built nested_text), "a"%string. split; [exact (accepted_b_ok _ _ _ _ _ _ _ A)|].
  split; [vm_compute; reflexivity|]. exists "x"%string. vm_compute. reflexivity.
Qed.
Print Assumptions C51_nested_grammars_refuted.

(** C52: Compile reports bad grammars as errors.  It does not: these texts pass validation under every
    runtime, and compiling them panics. *)
Definition panicking (x : string) : Prop :=
  forall rt, runtime_ok rt -> compile_text (with_runtime rt (desk [])) wbnf_front 9 300 (bs x) = CPanic.
Theorem C52_regexp_refuted : panicking "a -> /{*};".
Proof. intros rt OK. refine (panics_b_ok (desk []) wbnf_front 9 300 (bs "a -> /{*};") [] _ rt OK). vm_compute. reflexivity. Qed.
Print Assumptions C52_regexp_refuted.
Theorem C52_escape_refuted : panicking "a -> '\q';".
Proof. intros rt OK. refine (panics_b_ok (desk []) wbnf_front 9 300 (bs "a -> '\q';") [] _ rt OK). vm_compute. reflexivity. Qed.
Print Assumptions C52_escape_refuted.
(** @ outside a stack. *)
Theorem C52_at_refuted : panicking "a -> @;".
Proof. intros rt OK. refine (panics_b_ok (desk []) wbnf_front 9 300 (bs "a -> @;") [("a", 1)]%string _ rt OK). vm_compute. reflexivity. Qed.
Print Assumptions C52_at_refuted.
(** A stack inside a sequence, and inside a stack. *)
Theorem C52_inner_stack_refuted : panicking "a -> ('b' > 'c') 'x';".
Proof. intros rt OK. refine (panics_b_ok (desk []) wbnf_front 9 300 (bs "a -> ('b' > 'c') 'x';") [] _ rt OK). vm_compute. reflexivity. Qed.
Print Assumptions C52_inner_stack_refuted.
Theorem C52_stacked_stack_refuted : panicking "a -> 'x' > ('b' > 'c');".
Proof. intros rt OK. refine (panics_b_ok (desk []) wbnf_front 9 300 (bs "a -> 'x' > ('b' > 'c');") [] _ rt OK). vm_compute. reflexivity. Qed.
Print Assumptions C52_stacked_stack_refuted.
(** A nested grammar inside a stack. *)
Theorem C52_nested_in_stack_refuted : panicking "a -> ('x' {b -> 'y';}) > 'z';".
Proof. intros rt OK. refine (panics_b_ok (desk []) wbnf_front 9 300 (bs "a -> ('x' {b -> 'y';}) > 'z';") [] _ rt OK). vm_compute. reflexivity. Qed.
Print Assumptions C52_nested_in_stack_refuted.
(** A bound that does not fit into an int. *)
Theorem C52_bound_refuted : panicking "a -> 'x'{99999999999999999999,};".
Proof. intros rt OK. refine (panics_early_b_ok (desk []) wbnf_front 9 300 (bs "a -> 'x'{99999999999999999999,};") _ rt). vm_compute. reflexivity. Qed.
Print Assumptions C52_bound_refuted.
(** A .wrapRE that is no regexp. *)
Theorem C52_wrap_refuted : panicking ".wrapRE -> 'x'; a -> 'y';".
Proof. intros rt OK. refine (panics_b_ok (desk []) wbnf_front 9 300 (bs ".wrapRE -> 'x'; a -> 'y';") [] _ rt OK). vm_compute. reflexivity. Qed.
Print Assumptions C52_wrap_refuted.

(** Which grammars can be compiled: those whose stacks are on the top level of rules, without nested grammars in them, whose
    aliases lead to terms, and whose literals and patterns, wrapped as .wrapRE says, are regexps. *)
Theorem C52_compiles : forall E g, NoDup (keys g) -> clear_names g -> (forall r t, lookup r g = Some t -> tame t = true) ->
  (exists ps, compile E g = COk ps) <-> exists g2, unstacked g g2 /\ compiles_grammar E g2.
Proof. exact compile_iff. Qed.
Print Assumptions C52_compiles.
Definition sum_grammar : grammar := built sum_text.
Example C52_compiles_example :
  (NoDup (keys sum_grammar) /\ clear_names sum_grammar /\ (forall r t, lookup r sum_grammar = Some t -> tame t = true) /\
   exists g2, unstacked sum_grammar g2 /\ compiles_grammar regex_engine g2) /\
  exists l1 l2, lookup "sum" sum_grammar = Some (TStack [l1; l2]).
Proof.
  split; [|do 2 eexists; vm_compute; reflexivity].
  assert (S : tidy_grammar_b sum_grammar = true) by (vm_compute; reflexivity).
  assert (T : forallb (fun kv : string * term => tame (snd kv)) sum_grammar = true) by (vm_compute; reflexivity).
  assert (X : exists ps, compile regex_engine sum_grammar = COk ps) by (eexists; vm_compute; reflexivity).
  exact (compiles_check regex_engine sum_grammar (tidy_grammar_b_ok _ S) T X).
Qed.

(** What Compile returns: the error of loading, the faults that validation found, or the parsers of the grammar built; the
    theorems about parsers of texts (C68) are about these. *)
Theorem C52_compile_text : forall w wbnf depth fuel txt r, compile_text w wbnf depth fuel txt = COk r <->
  (exists e, load_text w wbnf depth fuel txt = COk (inl e) /\ r = inl e) \/
  exists n, load_text w wbnf depth fuel txt = COk (inr n) /\
    ((exists v vs, validate (w_engine w) (w_runtime w) fuel n = COk (v :: vs) /\ r = inl (Invalid (v :: vs))) \/
     validate (w_engine w) (w_runtime w) fuel n = COk [] /\
     exists g ps, new_from_ast fuel n = COk g /\ compile (w_engine w) g = COk ps /\ r = inr ps).
Proof.
  intros w wbnf depth fuel txt r. unfold compile_text, build_text. split.
  - intros H. destruct (load_text w wbnf depth fuel txt) as [[e|n]| |]; cbn [cbind] in H; try discriminate; [left; exists e; split; congruence|].
    right. exists n. split; auto. destruct (validate (w_engine w) (w_runtime w) fuel n) as [[|v vs]| |]; cbn [cbind] in H; try discriminate.
    + right. split; auto. destruct (new_from_ast fuel n) as [g| |]; cbn [cbind] in H; try discriminate.
      destruct (compile (w_engine w) g) as [ps| |] eqn:C; cbn [cbind] in H; try discriminate. exists g, ps. repeat split; auto. congruence.
    + left. exists v, vs. split; congruence.
  - intros [(e & -> & ->)|(n & -> & [(v & vs & V & ->)|(V & g & ps & B & C & ->)])]; cbn [cbind]; auto.
    + now rewrite V.
    + rewrite V. cbn [cbind]. rewrite B. cbn [cbind]. now rewrite C.
Qed.
Print Assumptions C52_compile_text.
(** So Compile succeeds on an accepted text without macros and nested grammars just if the grammar built meets the conditions above. *)
Theorem C52_text_compiles : forall w wbnf depth fuel txt n g, load_text w wbnf depth fuel txt = COk (inr n) -> plain_tree n ->
  validate (w_engine w) (w_runtime w) fuel n = COk [] -> new_from_ast fuel n = COk g ->
  clear_names g -> (forall r t, lookup r g = Some t -> tame t = true) ->
  (exists ps, compile_text w wbnf depth fuel txt = COk (inr ps)) <-> exists g2, unstacked g g2 /\ compiles_grammar (w_engine w) g2.
Proof.
  intros w wbnf depth fuel txt n g L P V B CN T. rewrite <- (C52_compiles (w_engine w) g); auto.
  - split; intros (ps & H); exists ps.
    + apply C52_compile_text in H as [(e & H & X)|(n' & H & [(v & vs & H' & X)|(_ & g' & ps' & B' & C & X)])]; try discriminate.
      assert (n' = n) by congruence. subst. assert (g' = g) by congruence. subst. congruence.
    + apply C52_compile_text. right. exists n. split; auto. right. split; auto. exists g, ps. auto.
  - exact (proj1 (C51_definitions_kept _ _ _ _ _ _ P V B)).
Qed.
Print Assumptions C52_text_compiles.
Example C52_text_example : exists ps, compile_text (desk []) wbnf_front 9 300 (bs sum_text) = COk (inr ps) /\
  load_text (desk []) wbnf_front 9 300 (bs sum_text) = COk (inr (parsed sum_text)) /\ plain_tree (parsed sum_text) /\ new_from_ast 300 (parsed sum_text) = COk sum_grammar.
Proof.
  eexists. split; [vm_compute; reflexivity|]. split; [vm_compute; reflexivity|]. split; [apply plain_b_ok; vm_compute; reflexivity|vm_compute; reflexivity].
Qed.
