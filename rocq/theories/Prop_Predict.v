(** Properties C21 and C68: grammars in which one byte decides, and what a compiled text parses. *)
From Verif Require Import Base Scanner ScannerSpec Syntax Engine Resolve Compile Parse Regex RegexProofs PegSpec FlowSpec FordSpec CutSpec ApiSpec ApiProofs CutPoints CutPointSpec
  Demo DrawProofs WfSpec Ast AstProofs WbnfAst Build Recursion Validate Front FrontSpec FrontDemo FrontCheck RefsSpec RefsProofs TextSpec TextProofs GuardSpec GuardProofs TextCheck Prop_Guard RecursionSpec PredictSpec PredictProofs PredictTop PredictCheck.
Local Open Scope Z_scope.

(** C21, for predictive grammars: the inserted cut points change neither the inputs accepted nor the trees. *)
Theorem C21_predictive_preserved : forall E T g ps0 ps rnd, engine_ok E -> NoDup (keys g) -> textbook_grammar E g -> sound_rules g ->
  predictive_grammar E T g -> compile E g = COk ps0 -> compile E (insert_cut_points g) = COk ps -> (forall n, drawn_ok rnd n) ->
  forall r s x v s', in_range s -> shows s x ->
  ((exists f, parse_rule (plain_call E rnd) f ps r s = (ROk v, s')) <-> (exists f, parse_rule (plain_call E rnd) f ps0 r s = (ROk v, s'))).
Proof. exact predictive_preserved. Qed.
Print Assumptions C21_predictive_preserved.

Definition sums_table : table :=
  rule_table [] [("e", "(0123456789"); ("n", "(0123456789")]%string [("e", ")"); ("n", "+-)")]%string.
Lemma seqno_ok : forall n, drawn_ok seqno n.
Proof. intros n. unfold drawn_ok, seqno. split; intros; lia. Qed.
Example C21_predictive_example : NoDup (keys sums) /\ textbook_grammar regex_engine sums /\ sound_rules sums /\
  predictive_grammar regex_engine sums_table sums /\ (forall n, drawn_ok seqno n) /\
  compile regex_engine sums = COk (parsers_of sums) /\
  compile regex_engine (insert_cut_points sums) = COk (parsers_of (insert_cut_points sums)) /\ insert_cut_points sums <> sums /\
  (exists v s', parse_rule call 50 (parsers_of (insert_cut_points sums)) "e" (text "1+(2-3)") = (ROk v, s')) /\
  (exists e s', parse_rule call 50 (parsers_of (insert_cut_points sums)) "e" (text "1+(2-)") = (RErr e, s')).
Proof.
  split; [repeat constructor; simpl; intuition; discriminate|]. split; [apply textbook_grammar_b_ok; vm_compute; reflexivity|].
  split; [intros r t L; apply lookup_In in L; destruct L as [L|[L|[]]]; injection L as <- <-; right; reflexivity|].
  split; [apply grammar_predictive_b_ok; [intros; split; reflexivity|vm_compute; reflexivity]|].
  split; [exact seqno_ok|]. split; [vm_compute; reflexivity|]. split; [vm_compute; reflexivity|]. split; [discriminate|].
  split; do 2 eexists; vm_compute; reflexivity.
Qed.

(** C68: a parser compiled from an accepted text says nothing that the text does not say: what it matches, what it leaves
    and what it refuses (other than after a cut point) is what the textbook reading of the text matches, leaves and refuses ... *)
Theorem C68_says_no_more : forall rt fuel n prods fuel' g c ps f r s x, cf_esc c = None -> engine_ok (cf_eng c) ->
  plain_tree n -> reads_grammar n prods -> validate (cf_eng c) rt fuel n = COk [] -> new_from_ast fuel' n = COk g -> compile (cf_eng c) g = COk ps ->
  textbook_grammar (cf_eng c) (grammar_text prods) -> sound_rules (grammar_text prods) -> drawn_ok (cf_rnd c) (draws c f ps r s) -> in_range s -> shows s x ->
  match parse_rule c f ps r s with
  | (ROk v, _) => ford (cf_eng c) (grammar_text prods) (TRule r) x (Some [])
  | (RErr (EUnconsumed residue _), _) => exists rest, shows residue rest /\ rest <> [] /\ ford (cf_eng c) (grammar_text prods) (TRule r) x (Some rest)
  | (RErr (EParse _), _) => ford (cf_eng c) (grammar_text prods) (TRule r) x None
  | _ => True
  end.
Proof.
  intros rt fuel n prods fuel' g c ps f r s x NE OK P R V B C TB SR DR I S.
  destruct (accepted_names _ _ _ _ _ _ _ P R V B) as [N _]. rewrite (built_text _ _ _ _ R N B) in C.
  assert (ND : NoDup (keys (grammar_text prods))) by (unfold grammar_text, keys; rewrite map_map; exact N).
  pose proof (marked_textbook c _ ps f r s x NE OK ND TB SR C DR I S) as X.
  destruct (parse_rule c f ps r s) as [[v|e| |] s']; auto. apply X.
Qed.
Print Assumptions C68_says_no_more.

(** ... and if one byte decides, exactly the inputs of the text are accepted. *)
Theorem C68_accepts_what_it_says : forall E T rt fuel n prods fuel' g ps rnd, engine_ok E ->
  plain_tree n -> reads_grammar n prods -> validate E rt fuel n = COk [] -> new_from_ast fuel' n = COk g -> compile E g = COk ps ->
  textbook_grammar E (grammar_text prods) -> sound_rules (grammar_text prods) -> predictive_grammar E T (grammar_text prods) -> (forall k, drawn_ok rnd k) ->
  forall r s x, in_range s -> shows s x ->
  ((exists f v s', parse_rule (plain_call E rnd) f ps r s = (ROk v, s')) <-> ford E (grammar_text prods) (TRule r) x (Some [])).
Proof.
  intros E T rt fuel n prods fuel' g ps rnd OK P R V B C TB SR PG DR r s x I S.
  destruct (accepted_names _ _ _ _ _ _ _ P R V B) as [N _]. rewrite (built_text _ _ _ _ R N B) in C.
  assert (ND : NoDup (keys (grammar_text prods))) by (unfold grammar_text, keys; rewrite map_map; exact N).
  exact (proj2 (predictive_accepts E T _ ps OK ND TB SR PG C rnd (drawn_ids _ DR) r s x I S)).
Qed.
Print Assumptions C68_accepts_what_it_says.

(** If the check for left recursion sees all there is (C38), every input is decided. *)
Theorem C68_decides : forall E T rt fuel n prods fuel' g ps rnd eating d, engine_ok E ->
  plain_tree n -> reads_grammar n prods -> validate E rt fuel n = COk [] -> new_from_ast fuel' n = COk g -> compile E g = COk ps ->
  textbook_grammar E (grammar_text prods) -> sound_rules (grammar_text prods) -> predictive_grammar E T (grammar_text prods) -> (forall k, drawn_ok rnd k) ->
  collect_dangers fuel n = COk d -> (forall p, ~ cycle d p) -> guarded_text E (lookup WrapRE g) eating prods -> tame (plain_call E rnd) ->
  forall r s x, in_range s -> shows s x ->
  exists f0 o, (forall f, (f0 <= f)%nat -> parse_rule (plain_call E rnd) f ps r s = o) /\ fst o <> RFuel /\
    ((exists v, fst o = ROk v) <-> ford E (grammar_text prods) (TRule r) x (Some [])).
Proof.
  intros E T rt fuel n prods fuel' g ps rnd eating d OK P R V B C TB SR PG DR D A G TM r s x I S.
  destruct (accepted_names _ _ _ _ _ _ _ P R V B) as [N _].
  destruct (C38_guarded_acyclic (plain_call E rnd) fuel n prods d eating fuel' g ps eq_refl TM P R N D A B G C r s I) as (f0 & o & NF & Q).
  exists f0, o. split; auto. split; auto.
  rewrite <- (C68_accepts_what_it_says E T rt fuel n prods fuel' g ps rnd OK P R V B C TB SR PG DR r s x I S). split.
  - intros (v & X). exists f0, v, (snd o). rewrite (Q f0 (le_n _)). destruct o; simpl in *; congruence.
  - intros (f & v & s' & X). exists v. rewrite <- (Q (f0 + f)%nat) by lia.
    destruct (parse_rule_more ps (plain_call E rnd) f (f0 + f) r s (ROk v) s' ltac:(lia) X ltac:(discriminate)) as [Y _]. rewrite Y. reflexivity.
Qed.
Print Assumptions C68_decides.

Definition data_text : string :=
  "value -> '{' (pair:',')? '}' | '[' (value:',')? ']' | /{\d+} | /{[a-z]+}; pair -> key=/{[A-Z]+} ':' value;".
Definition data_tree : anode := Eval vm_compute in tree_of data_text.
Definition data_prods : list (string * list ctext) := Eval vm_compute in match read_grammar 300 data_tree with Some p => p | None => [] end.
Definition data_grammar : grammar := Eval vm_compute in match new_from_ast 300 data_tree with COk g => g | _ => [] end.
Definition data_graph : graph := Eval vm_compute in match collect_dangers 300 data_tree with COk d => d | _ => [] end.
Definition data_table : table :=
  rule_table [] [("value", "{[0123456789abcdefghijklmnopqrstuvwxyz"); ("pair", "ABCDEFGHIJKLMNOPQRSTUVWXYZ")]%string [("value", ",]}"); ("pair", ",}")]%string.
Example C68_example : front_ast 300 data_text = COk (inr data_tree) /\ plain_tree data_tree /\ reads_grammar data_tree data_prods /\
  validate regex_engine plain_runtime 300 data_tree = COk [] /\ new_from_ast 300 data_tree = COk data_grammar /\
  compile regex_engine data_grammar = COk (parsers_of data_grammar) /\
  textbook_grammar regex_engine (grammar_text data_prods) /\ sound_rules (grammar_text data_prods) /\
  predictive_grammar regex_engine data_table (grammar_text data_prods) /\ (forall k, drawn_ok seqno k) /\
  collect_dangers 300 data_tree = COk data_graph /\ (forall p, ~ cycle data_graph p) /\
  guarded_text regex_engine (lookup WrapRE data_grammar) ["pair"; "value"]%string data_prods /\ tame (plain_call regex_engine seqno) /\
  data_grammar <> grammar_text data_prods /\
  (exists v s', parse_rule call 90 (parsers_of data_grammar) "value" (text "{A:[1,x],B:{}}") = (ROk v, s')) /\
  (exists e s', parse_rule call 90 (parsers_of data_grammar) "value" (text "{A:[1,],B:{}}") = (RErr e, s')).
Proof.
  split; [vm_compute; reflexivity|]. split; [apply plain_b_ok; vm_compute; reflexivity|].
  split; [apply (read_grammar_ok 300); vm_compute; reflexivity|]. split; [vm_compute; reflexivity|]. split; [vm_compute; reflexivity|].
  split; [vm_compute; reflexivity|]. split; [apply textbook_grammar_b_ok; vm_compute; reflexivity|].
  split; [intros r t L; apply lookup_In in L; destruct L as [L|[L|[]]]; injection L as <- <-; right; reflexivity|].
  split; [apply grammar_predictive_b_ok; [intros; split; reflexivity|vm_compute; reflexivity]|]. split; [exact seqno_ok|].
  split; [vm_compute; reflexivity|]. split; [apply (descends_b_ok _ []); vm_compute; reflexivity|].
  split; [apply guarded_text_b_ok; vm_compute; reflexivity|].
  split; [split; [exact regex_engine_ok|split; discriminate]|]. split; [discriminate|].
  split; do 2 eexists; vm_compute; reflexivity.
Qed.
