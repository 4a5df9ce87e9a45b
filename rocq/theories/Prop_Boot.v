(** Property C49: the grammar of wbnf describes itself. *)
From Verif Require Import Base Scanner Syntax Engine Resolve Compile Parse Regex StackSpec ChainProofs WbnfGrammar Ast WbnfAst Walker Build
  Recursion RecursionSpec RecursionProofs Validate Front FrontSpec FrontProofs FrontDemo WbnfSource Diff Boot BootProofs Demo.

From Coq Require Import Permutation.

(** The AST of the text of the grammar, and the grammar built from it. *)
Definition core_ast : anode := Eval vm_compute in
  match load_text (desk []) wbnf_front 9 1000 grammar_grammar_src with COk (inr n) => n | _ => ABranch [] end.
Definition core_grammar : grammar := Eval vm_compute in match new_from_ast 300 core_ast with COk g => g | _ => [] end.
Definition core_graph : graph := Eval vm_compute in match collect_dangers 300 core_ast with COk d => d | _ => [] end.
(** Where every rule stands in the order of first references. *)
Definition core_rank (x : string) : nat :=
  match lookup x [("stmt", 3); ("pragma", 2); ("prod", 2); ("named", 2); ("atom", 1)]%string with Some n => n | None => 0 end.

Lemma core_loads : load_text (desk []) wbnf_front 9 1000 grammar_grammar_src = COk (inr core_ast).
Proof. vm_cast_no_check (@eq_refl (cres (front_error + anode)) (COk (inr core_ast))). Qed.
Lemma core_probed : probe (w_engine (desk [])) 1000 core_ast = Some ([], core_graph, core_grammar).
Proof. vm_compute. reflexivity. Qed.
Lemma core_descends : descends core_graph core_rank.
Proof.
  assert (H : forallb (fun kv : string * list string => forallb (fun y => Nat.ltb (core_rank y) (core_rank (fst kv))) (snd kv)) core_graph = true)
    by (vm_compute; reflexivity).
  intros x l y K I. rewrite forallb_forall in H. specialize (H _ (lookup_In _ _ _ K)). cbn [fst snd] in H.
  rewrite forallb_forall in H. apply Nat.ltb_lt. apply H. exact I.
Qed.

(** C49: the text of the wbnf grammar is accepted, however slices grow and maps are iterated ... *)
Theorem C49_text_accepted : forall rt, runtime_ok rt ->
  build_text (with_runtime rt (desk [])) wbnf_front 9 1000 grammar_grammar_src = COk (inr core_grammar).
Proof.
  intros rt OK.
  refine (text_accepted (desk []) wbnf_front 9 1000 grammar_grammar_src core_ast [] core_graph core_grammar core_loads core_probed eq_refl _ rt OK).
  exact (descends_acyclic core_graph core_rank core_descends).
Qed.
Print Assumptions C49_text_accepted.

Definition hand_grammar : grammar := Eval vm_compute in match compiled_grammar wbnf_grammar with COk a => a | _ => [] end.
Lemma hand_compiled : compiled_grammar wbnf_grammar = COk hand_grammar.
Proof. vm_compute. reflexivity. Qed.
Lemma hand_parsers : exists qs, compile regex_engine hand_grammar = COk qs /\
  forall c f r s, parse_rule c f qs r s = parse_rule c f (parsers_of wbnf_grammar) r s.
Proof.
  exists (parsers_of hand_grammar). split; [vm_compute; reflexivity|].
  assert (H : p_rules (parsers_of hand_grammar) = p_rules (parsers_of wbnf_grammar)) by (vm_compute; reflexivity).
  intros c f r s. unfold parse_rule. rewrite H. reflexivity.
Qed.

(** ... whenever the comparison at start-up passes, for whatever grammar, its result parses
    exactly like the grammar written by hand ... *)
Theorem C49_check_sound : forall g ps, NoDup (keys g) -> Forall (fun kv : string * term => DiffSpec.maps_ok (snd kv)) g ->
  core regex_engine g = COk ps ->
  forall c f r s, parse_rule c f ps r s = parse_rule c f (parsers_of wbnf_grammar) r s.
Proof.
  intros g ps N F H c f r s. destruct hand_parsers as (qs & Q & R). rewrite <- R.
  apply (core_like regex_engine g ps hand_grammar qs H (conj N F) hand_compiled); auto.
  apply tidy_grammar_b_ok. vm_compute. reflexivity.
Qed.
Print Assumptions C49_check_sound.

(** ... and it does pass for the grammar built from the text. *)
Theorem C49_core_succeeds : exists ps, core regex_engine core_grammar = COk ps /\
  forall c f r s, parse_rule c f ps r s = parse_rule c f (parsers_of wbnf_grammar) r s.
Proof.
  assert (H : exists ps, core regex_engine core_grammar = COk ps) by (eexists; vm_compute; reflexivity).
  destruct H as (ps & C). exists ps. split; [exact C|].
  assert (T : tidy_grammar_b core_grammar = true) by (vm_compute; reflexivity).
  destruct (same_map_maps _ _ (tidy_grammar_b_ok core_grammar T)) as [N F].
  exact (C49_check_sound core_grammar ps N F C).
Qed.
Print Assumptions C49_core_succeeds.

Example C49_example : runtime_ok plain_runtime /\
  core regex_engine [("a", TS (bs "x"))]%string = CPanic /\
  fst (parse_rule (mkConfig regex_engine [] None seqno) 300 (parsers_of wbnf_grammar) "grammar" (text "a -> 'x';")) <> RFuel.
Proof.
  split; [split; [exact doubling_grows|split; intros; apply Permutation_refl]|].
  split; vm_compute; [reflexivity|discriminate].
Qed.
