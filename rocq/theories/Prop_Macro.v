(** Property C53: macros that lead back to themselves. *)
From Verif Require Import Base Scanner ScannerSpec Syntax Engine Resolve Compile Parse Regex Demo Ast AstProofs WbnfAst Walker Build Recursion Validate Front FrontSpec FrontProofs
  FrontDemo FrontCheck TextSpec MacroSpec MacroProofs.

(** C53: a grammar is built only if no macro used by it leads back to itself ([uses] has no infinite path from its productions),
    so for all others the builder never returns a grammar ... *)
Theorem C53_built_macros_founded : forall fuel n g, new_from_ast fuel n = COk g -> exists ms, collect_macros fuel n = COk ms /\
  forall stmt p t, In stmt (all "stmt" n) -> one "prod" stmt = Some p -> In t (all "term" p) -> Acc (fun b t => uses ms t b) t.
Proof. exact grammar_founded. Qed.
Print Assumptions C53_built_macros_founded.

(** ... it recurses without end if the first thing to be built always leads to such a macro ... *)
Theorem C53_never_ends : forall ms (T : anode -> Prop), (forall t, T t -> exists u, T u /\ first_uses ms t u) ->
  forall fuel t, T t -> build_term ms fuel t = CDiv.
Proof. exact first_uses_dives. Qed.
Print Assumptions C53_never_ends.

(** ... and validation does not notice: expected is that it rejects such texts, but this one passes under every runtime, and
    building its grammar never ends. *)
Definition loop_text : string := ".macro m(x) { %!m(x) } a -> %!m('1');".
Definition loop_tree : anode := Eval vm_compute in match front_ast 300 loop_text with COk (inr n) => n | _ => ABranch [] end.
Definition loop_macros : macros := Eval vm_compute in match collect_macros 300 loop_tree with COk m => m | _ => [] end.
Definition loop_body : anode := Eval vm_compute in
  match lookup "m"%string loop_macros with Some m => match one "term" m with Some t => t | None => ABranch [] end | None => ABranch [] end.
Definition inner (t : anode) : anode := hd t (all "term" t).
Definition loop_prod : anode := Eval vm_compute in
  match flat_map (fun s => match one "prod" s with Some p => all "term" p | None => [] end) (all "stmt" loop_tree) with t :: _ => t | [] => ABranch [] end.
Definition loop_terms (t : anode) : Prop :=
  t = loop_body \/ t = inner loop_body \/ t = inner (inner loop_body) \/ t = inner (inner (inner loop_body)) \/
  t = loop_prod \/ t = inner loop_prod \/ t = inner (inner loop_prod) \/ t = inner (inner (inner loop_prod)).
Ltac first_call := eapply fu_call; [vm_compute; reflexivity|vm_compute; reflexivity|vm_compute; reflexivity|eexists; split; [reflexivity|vm_compute; reflexivity]|
  vm_compute; reflexivity|vm_compute; reflexivity|vm_compute; reflexivity|vm_compute; reflexivity].
Ltac first_inner := eapply fu_term; vm_compute; reflexivity.
Lemma loop_closed : forall t, loop_terms t -> exists u, loop_terms u /\ first_uses loop_macros t u.
Proof.
  intros t H. unfold loop_terms in *. destruct H as [->|[->|[->|[->|[->|[->|[->| ->]]]]]]].
  - exists (inner loop_body). split; [tauto|first_inner].
  - exists (inner (inner loop_body)). split; [tauto|first_inner].
  - exists (inner (inner (inner loop_body))). split; [tauto|first_inner].
  - exists loop_body. split; [tauto|first_call].
  - exists (inner loop_prod). split; [tauto|first_inner].
  - exists (inner (inner loop_prod)). split; [tauto|first_inner].
  - exists (inner (inner (inner loop_prod))). split; [tauto|first_inner].
  - exists loop_body. split; [tauto|first_call].
Qed.
Lemma loop_never : forall fuel, new_from_ast fuel loop_tree = CDiv.
Proof.
  intro fuel. destruct (Nat.lt_ge_cases fuel 100) as [L|L].
  - assert (C : forallb (fun f => match new_from_ast f loop_tree with CDiv => true | _ => false end) (seq 0 100) = true) by (vm_compute; reflexivity).
    rewrite forallb_forall in C. specialize (C fuel). destruct (new_from_ast fuel loop_tree); auto; discriminate C; apply in_seq; lia.
  - replace fuel with (100 + (fuel - 100)) by lia. generalize (fuel - 100). clear. intro k. unfold new_from_ast.
    assert (M : collect_macros (100 + k) loop_tree = COk loop_macros) by (vm_compute; reflexivity).
    rewrite M. cbn [cbind]. unfold build_grammar.
    assert (D := first_uses_dives loop_macros loop_terms loop_closed (100 + k) loop_prod ltac:(unfold loop_terms; tauto)).
    revert D. generalize (build_term loop_macros (100 + k)). intros rec D.
    assert (S : exists s1 s2 p, all "stmt" loop_tree = [s1; s2] /\ one "prod" s1 = None /\ one "prod" s2 = Some p /\ all "term" p = [loop_prod])
      by (do 3 eexists; repeat split; vm_compute; reflexivity).
    destruct S as (s1 & s2 & p & -> & P1 & P2 & T). cbn [fold_left cbind]. rewrite P1. cbn [cbind]. rewrite P2. unfold build_prod. rewrite T.
    cbn [ctraverse]. rewrite D. reflexivity.
Qed.
Theorem C53_recursive_macro_refuted : exists n, load_text (desk []) wbnf_front 9 300 (bs loop_text) = COk (inr n) /\
  (forall rt, runtime_ok rt -> validate regex_engine rt 300 n = COk []) /\ forall fuel, new_from_ast fuel n = CDiv.
Proof.
  exists loop_tree.
  assert (A : exists n r, front_check (desk []) wbnf_front 9 300 (bs loop_text) [] = Some (n, r)) by (do 2 eexists; vm_compute; reflexivity).
  assert (L : load_text (desk []) wbnf_front 9 300 (bs loop_text) = COk (inr loop_tree)) by (vm_compute; reflexivity).
  destruct A as (n & r & A). destruct (front_check_ok _ _ _ _ _ _ _ _ A) as (L' & _ & V). rewrite L in L'. injection L' as <-.
  split; [exact L|]. split; [|exact loop_never]. intros rt OK. exact (proj1 (V rt OK)).
Qed.
Print Assumptions C53_recursive_macro_refuted.

(** Example: macros that use each other in a definite order are expanded; the argument replaces the parameter. *)
Definition twice_text : string := ".macro twice(x) { x x } .macro quad(y) { %!twice(%!twice(y)) } a -> %!quad('1');".
Definition twice_tree : anode := Eval vm_compute in match front_ast 300 twice_text with COk (inr n) => n | _ => ABranch [] end.
Definition quad_prod : anode := Eval vm_compute in
  match flat_map (fun s => match one "prod" s with Some p => all "term" p | None => [] end) (all "stmt" twice_tree) with t :: _ => t | [] => ABranch [] end.
Definition one_ : term := TS (bs "1").
Example C53_example : exists ms s1 s2 s3 p b, collect_macros 300 twice_tree = COk ms /\ map fst ms = ["twice"; "quad"]%string /\
  all "stmt" twice_tree = [s1; s2; s3] /\ one "prod" s3 = Some p /\ all "term" p = [quad_prod] /\ uses ms quad_prod b /\
  new_from_ast 300 twice_tree = COk [("a"%string, TSeq [TSeq [one_; one_]; TSeq [one_; one_]])].
Proof.
  do 6 eexists. split; [vm_compute; reflexivity|]. split; [reflexivity|]. split; [vm_compute; reflexivity|].
  split; [vm_compute; reflexivity|]. split; [vm_compute; reflexivity|]. split; [|vm_compute; reflexivity].
  eapply us_term; [vm_compute; left; reflexivity|]. eapply us_term; [vm_compute; left; reflexivity|]. eapply us_term; [vm_compute; left; reflexivity|].
  eapply us_named; [vm_compute; reflexivity|vm_compute; reflexivity|]. eapply un; [vm_compute; reflexivity|].
  eapply ua_call; [eexists; split; [reflexivity|vm_compute; reflexivity]|vm_compute; reflexivity|vm_compute; reflexivity|vm_compute; reflexivity|vm_compute; reflexivity].
Qed.
