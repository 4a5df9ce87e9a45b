(** Property C56: what a call of a macro stands for. *)
From Verif Require Import Base Scanner ScannerSpec Syntax Engine Resolve Compile Parse Regex Demo Ast AstProofs WbnfAst Walker Build Recursion Validate Front FrontSpec FrontProofs
  FrontDemo FrontCheck TextSpec TextProofs TextCheck MacroSpec MacroProofs.

(** C56: where the body of the macro has no look-ahead and no nested grammar, the call stands for the body with the parameters
    replaced by the arguments. *)
Theorem C56_expansion : forall ms fuel node u, expand_macro ms (build_term ms fuel) node = COk u ->
  exists name macro body t, string_of (one "name" node) = COk name /\ lookup name ms = Some macro /\ one "term" macro = Some body /\
    build_term ms fuel body = COk t /\
    (exposed t = true ->
     substituted (fun r => exists i, names_param (all "args" macro) r i)
                 (fun r v => exists i a, names_param (all "args" macro) r i /\ nth_error (all "term" node) i = Some a /\ build_term ms fuel a = COk v) t u).
Proof. intros ms fuel. exact (expansion_substitutes ms (build_term ms fuel)). Qed.
Print Assumptions C56_expansion.
(** With the body and the arguments as they are written. *)
Theorem C56_written : forall ms fuel node u, expand_macro ms (build_term ms fuel) node = COk u ->
  forall name macro body c args, string_of (one "name" node) = COk name -> lookup name ms = Some macro -> one "term" macro = Some body ->
  reads body c -> exposed (term_of c) = true -> Forall2 reads (all "term" node) args ->
  substituted (fun r => exists i, names_param (all "args" macro) r i)
              (fun r v => exists i a, names_param (all "args" macro) r i /\ nth_error args i = Some a /\ v = term_of a) (term_of c) u.
Proof. exact expansion_written. Qed.
Print Assumptions C56_written.
(** The result is unique. *)
Theorem C56_one_way : forall param (value : string -> term -> Prop) t u u', (forall r v v', value r v -> value r v' -> v = v') ->
  substituted param value t u -> substituted param value t u' -> u = u'.
Proof. exact substituted_unique. Qed.
Print Assumptions C56_one_way.

Definition list_text : string := ".macro list(x, y) { '(' (x:y) y? z ')' } a -> %!list('1', x=',' ';'); z -> 'z';".
Definition list_tree : anode := Eval vm_compute in match front_ast 300 list_text with COk (inr n) => n | _ => ABranch [] end.
Definition list_macros : macros := Eval vm_compute in match collect_macros 300 list_tree with COk m => m | _ => [] end.
Definition list_macro : anode := Eval vm_compute in match lookup "list"%string list_macros with Some m => m | None => ABranch [] end.
Definition list_body : anode := Eval vm_compute in match one "term" list_macro with Some m => m | None => ABranch [] end.
Fixpoint find_call (fuel : nat) (t : anode) : option anode :=
  match fuel with
  | 0 => None
  | S f => match one "named" t with
           | Some n => match one "atom" n with Some a => one "macrocall" a | None => None end
           | None => match all "term" t with u :: _ => find_call f u | [] => None end
           end
  end.
Definition list_call : anode := Eval vm_compute in
  match flat_map (fun s => match one "prod" s with Some p => all "term" p | None => [] end) (all "stmt" list_tree) with
  | t :: _ => match find_call 9 t with Some c => c | None => ABranch [] end
  | [] => ABranch []
  end.
Definition list_ctext : ctext := Eval vm_compute in match read_term 300 list_body with Some c => c | None => CNone end.
Definition list_args : list ctext := Eval vm_compute in match otraverse (read_term 300) (all "term" list_call) with Some c => c | None => [] end.
Definition listed (y : term) : term := TSeq [TS (bs "("); TDelim (TS (bs "1")) y NonAssociative false false; Opt y; TRule "z"; TS (bs ")")].
(** The argument may use the name of a parameter; the separator is the whole second argument. *)
Example C56_example : exists u, expand_macro list_macros (build_term list_macros 300) list_call = COk u /\
  lookup "list"%string list_macros = Some list_macro /\ one "term" list_macro = Some list_body /\
  string_of (one "name" list_call) = COk "list"%string /\ reads list_body list_ctext /\ exposed (term_of list_ctext) = true /\
  Forall2 reads (all "term" list_call) list_args /\ u = listed (TSeq [TNamed "x" (TS (bs ",")); TS (bs ";")]).
Proof.
  eexists. split; [vm_compute; reflexivity|]. split; [vm_compute; reflexivity|]. split; [vm_compute; reflexivity|]. split; [vm_compute; reflexivity|].
  split; [apply (read_term_ok 300); vm_compute; reflexivity|]. split; [vm_compute; reflexivity|].
  split; [eapply otraverse_ok; [apply (read_term_ok 300)|vm_compute; reflexivity]|]. vm_compute. reflexivity.
Qed.

(** Expected is the same for the other macros, but parameters are not replaced inside look-aheads and nested grammars: the
    body is that of the macro, the parameter is left as the name of a rule that does not exist, and the parser panics. *)
Definition unreplaced (x : string) (g : grammar) : Prop :=
  (forall rt, runtime_ok rt -> build_text (with_runtime rt (desk [])) wbnf_front 9 300 (bs x) = COk (inr g)) /\
  ~ In "x"%string (keys g) /\ exists ps, compile regex_engine g = COk ps /\
  fst (parse_rule call 300 ps "a" (text "1")) = RPanic.
Definition ahead_text : string := ".macro m(x) { (?=x) x } a -> %!m('1');".
Definition inside_text : string := ".macro m(x) { (b {b -> x x;}) x } a -> %!m('1');".
Definition ahead : grammar := [("a"%string, TSeq [TLookAhead (TRule "x"); TCut (TS (bs "1"))])].
Definition inside : grammar := [("a"%string, TSeq [TScoped (TRule "b") [("b"%string, TSeq [TRule "x"; TRule "x"])]; TCut (TS (bs "1"))])].
Lemma unreplaced_b : forall x g rank ps, accepted_b (desk []) wbnf_front 9 300 (bs x) rank = Some g -> mem "x"%string (keys g) = false ->
  compile regex_engine g = COk ps -> fst (parse_rule call 300 ps "a" (text "1")) = RPanic -> unreplaced x g.
Proof.
  intros x g rank ps A M C P. split; [exact (accepted_b_ok _ _ _ _ _ _ _ A)|]. split; [|exists ps; auto].
  apply RecursionProofs.mem_false. exact M.
Qed.
Theorem C56_lookahead_refuted : unreplaced ahead_text ahead.
Proof. apply (unreplaced_b _ _ [] (parsers_of ahead)); vm_compute; reflexivity. Qed.
Print Assumptions C56_lookahead_refuted.
Theorem C56_nested_refuted : unreplaced inside_text inside.
Proof. apply (unreplaced_b _ _ [("a", 1); ("b", 1)]%string (parsers_of inside)); vm_compute; reflexivity. Qed.
Print Assumptions C56_nested_refuted.
