(** Properties C38 and C55: grammar texts for which the recursion check is enough, and what the builder makes of a text. *)
From Verif Require Import Base Scanner ScannerSpec Syntax Engine Resolve Compile Parse Regex RegexProofs PegSpec FlowSpec ApiSpec Demo CutPoints StackSpec WfSpec WfCheck
  ChainProofs Ast AstProofs WbnfAst Walker Build Recursion RecursionSpec RecursionProofs Validate Front FrontSpec FrontProofs FrontDemo FrontCheck RefsSpec RefsProofs
  TextSpec TextProofs GuardSpec GuardProofs TextCheck.
From Coq Require Import Permutation.

(** C55: the grammar built from a text is the one the text stands for, with its cut points; the names must differ. *)
Theorem C55_built_as_written : forall fuel n prods g, reads_grammar n prods -> NoDup (keys prods) -> new_from_ast fuel n = COk g ->
  g = insert_cut_points (grammar_text prods).
Proof. exact built_text. Qed.
Print Assumptions C55_built_as_written.
(** In an accepted text they do. *)
Theorem C55_accepted_as_written : forall E rt fuel n prods fuel' g, plain_tree n -> reads_grammar n prods -> validate E rt fuel n = COk [] ->
  new_from_ast fuel' n = COk g -> g = insert_cut_points (grammar_text prods).
Proof. intros E rt fuel n prods fuel' g P R V B. destruct (accepted_names _ _ _ _ _ _ _ P R V B) as [N _]. exact (built_text _ _ _ _ R N B). Qed.
Print Assumptions C55_accepted_as_written.

Definition tree_of (x : string) : anode := match front_ast 300 x with COk (inr n) => n | _ => ABranch [] end.
Definition value_text : string :=
  "value -> '{' (pair:',',) '}' | opt* num=/{\d+}{1,3} | end; pair -> key=/{\w+} ':' value; opt -> '-' (?=value); end -> ('.' | /{;}+)?;".
Definition value_tree : anode := Eval vm_compute in tree_of value_text.
Definition value_prods : list (string * list ctext) := Eval vm_compute in match read_grammar 300 value_tree with Some p => p | None => [] end.
Definition value_grammar : grammar := Eval vm_compute in match new_from_ast 300 value_tree with COk g => g | _ => [] end.
Definition copying : runtime := mkRuntime S keys (fun _ l => rev l).
Definition value_graph : graph := Eval vm_compute in match collect_dangers 300 value_tree with COk d => d | _ => [] end.
Example C55_example : front_ast 300 value_text = COk (inr value_tree) /\ plain_tree value_tree /\ reads_grammar value_tree value_prods /\
  validate regex_engine plain_runtime 300 value_tree = COk [] /\ new_from_ast 300 value_tree = COk value_grammar /\
  keys value_grammar = ["value"; "pair"; "opt"; "end"]%string /\
  lookup "end" (grammar_text value_prods) = Some (Opt (TOneof [TS (bs "."); Some_ (TRE (bs ";"))])) /\
  lookup "end" value_grammar = Some (Opt (TOneof [TCut (TS (bs ".")); Some_ (TRE (bs ";"))])).
Proof.
  split; [vm_compute; reflexivity|]. split; [apply plain_b_ok; vm_compute; reflexivity|].
  split; [apply (read_grammar_ok 300); vm_compute; reflexivity|]. repeat split; vm_compute; reflexivity.
Qed.

(** C38: for texts in which everything that may be entered first is a reference the check looks at (see GuardSpec), a graph
    without cycles means that every parse ends. *)
Theorem C38_guarded_acyclic : forall c fuel n prods d eating fuel' g ps, cf_esc c = None -> tame c -> plain_tree n -> reads_grammar n prods ->
  NoDup (keys prods) -> collect_dangers fuel n = COk d -> (forall p, ~ cycle d p) -> new_from_ast fuel' n = COk g ->
  guarded_text (cf_eng c) (lookup WrapRE g) eating prods -> compile (cf_eng c) g = COk ps ->
  forall r s, in_range s -> exists f0 o, fst o <> RFuel /\ forall f, f0 <= f -> parse_rule c f ps r s = o.
Proof.
  intros c fuel n prods d eating fuel' g ps NE T P R N D A B G C. destruct (guarded_acyclic _ _ _ _ _ _ _ _ P R N D A B G) as [NS W].
  exact (plain_terminates c g ps NE T C NS W).
Qed.
Print Assumptions C38_guarded_acyclic.
(** So, with slices that never share their array, whatever is accepted ends. *)
Theorem C38_guarded_accepted : forall rt, runtime_ok rt -> rt_grow rt = S ->
  forall c fuel n prods eating fuel' g ps, cf_esc c = None -> tame c -> plain_tree n -> reads_grammar n prods -> ~ In ""%string (keys prods) ->
  validate (cf_eng c) rt fuel n = COk [] -> new_from_ast fuel' n = COk g ->
  guarded_text (cf_eng c) (lookup WrapRE g) eating prods -> compile (cf_eng c) g = COk ps ->
  forall r s, in_range s -> exists f0 o, fst o <> RFuel /\ forall f, f0 <= f -> parse_rule c f ps r s = o.
Proof.
  intros rt OK GR c fuel n prods eating fuel' g ps NE T P R NK V B G C. destruct (accepted_names _ _ _ _ _ _ _ P R V B) as [N _].
  destruct (accepted_graph _ _ _ _ V) as (d & D & CH).
  refine (C38_guarded_acyclic c fuel n prods d eating fuel' g ps NE T P R N D _ B G C). intros p Cy.
  assert (KD : ~ In ""%string (keys d)).
  { rewrite (graph_of_text _ _ _ _ P R N D). unfold text_graph, keys. rewrite map_map. exact NK. }
  assert (X : check_for_recursion rt fuel n = COk true) by (eapply check_finds; eauto; rewrite GR; apply full_succ). congruence.
Qed.
Print Assumptions C38_guarded_accepted.
Example C38_guarded_example : guarded_text regex_engine (lookup WrapRE value_grammar) ["pair"; "opt"]%string value_prods /\
  collect_dangers 300 value_tree = COk value_graph /\ (forall p, ~ cycle value_graph p) /\ lookup "value" value_graph = Some ["opt"; "end"]%string /\
  compile regex_engine value_grammar = COk (parsers_of value_grammar) /\
  runtime_ok copying /\ validate regex_engine copying 300 value_tree = COk [] /\ ~ In ""%string (keys value_prods).
Proof.
  split; [apply guarded_text_b_ok; vm_compute; reflexivity|]. split; [vm_compute; reflexivity|].
  split; [apply (descends_b_ok _ [("value", 1)]%string); vm_compute; reflexivity|]. split; [vm_compute; reflexivity|]. split; [vm_compute; reflexivity|].
  split; [split; [simpl; lia|]; split; intros; simpl; [apply Permutation_sym, Permutation_rev|apply Permutation_refl]|].
  split; [vm_compute; reflexivity|vm_compute; intuition discriminate].
Qed.
