(** Properties C36, C37, C38 and C50: what the recursion check of validation decides. *)
From Verif Require Import Base Scanner ScannerSpec ScannerProofs Syntax Engine Resolve Compile Parse Regex RegexProofs PegSpec TopProofs
  FlowSpec CutSpec ApiSpec ApiProofs DrawProofs LocalSpec LocalProofs PanicSpec PanicCheck ChainProofs WfSpec WfCheck LeftSpec LeftProofs
  Demo Ast WbnfAst Walker Build Recursion RecursionSpec RecursionProofs Validate Front FrontSpec FrontProofs FrontDemo.
From Coq Require Import Permutation.

Definition graph_of (x : string) : graph :=
  match front_ast 300 x with
  | COk (inr n) => match collect_dangers 300 n with COk d => d | _ => [] end
  | _ => []
  end.
Lemma plain_runtime_ok : runtime_ok plain_runtime.
Proof. split; [exact doubling_grows|]. split; intros; apply Permutation_refl. Qed.
Lemma cycle_nodup : forall l : list string, (if list_eq_dec string_dec (union [] l) l then true else false) = true -> NoDup l.
Proof. intros l H. destruct (list_eq_dec string_dec (union [] l) l) as [<-|]; [apply union_NoDup; constructor|discriminate]. Qed.
Ltac edges := repeat (first [apply chain_one|eapply chain_more]; [eexists; split; [vm_compute; reflexivity|simpl; tauto]|]); try (apply chain_one; eexists; split; [vm_compute; reflexivity|simpl; tauto]).

(** C36: the check reports an error only if the graph of first references has a cycle, whatever the
    iteration order of the maps and however slices grow ... *)
Theorem C36_reports_only_cycles : forall rt, runtime_ok rt -> forall fuel n, check_for_recursion rt fuel n = COk true ->
  exists d p, collect_dangers fuel n = COk d /\ cycle d p.
Proof. exact check_reports. Qed.
Print Assumptions C36_reports_only_cycles.

(** ... it gives an answer on every graph ... *)
Theorem C36_answers : forall rt, runtime_ok rt -> forall fuel n d, collect_dangers fuel n = COk d ->
  exists b, check_for_recursion rt fuel n = COk b.
Proof. exact check_answers. Qed.
Print Assumptions C36_answers.

(** ... with slices that double it reports every cycle whose length is a power of two ... *)
Theorem C36_power_of_two_reported : forall rt, runtime_ok rt -> rt_grow rt = doubling ->
  forall fuel n d p k, collect_dangers fuel n = COk d -> ~ In ""%string (keys d) -> cycle d p -> length p = 2 ^ k ->
  check_for_recursion rt fuel n = COk true.
Proof. intros rt OK G fuel n d p k D N C L. eapply check_finds; eauto. rewrite G, L. apply full_doubling. Qed.
Print Assumptions C36_power_of_two_reported.

(** ... and with slices that never share their array (each append copies) it is exact. *)
Theorem C36_exact_without_sharing : forall rt, runtime_ok rt -> rt_grow rt = S ->
  forall fuel n d, collect_dangers fuel n = COk d -> ~ In ""%string (keys d) ->
  (check_for_recursion rt fuel n = COk true <-> exists p, cycle d p).
Proof.
  intros rt OK G fuel n d D N. split.
  - intro H. destruct (check_reports rt OK fuel n H) as [d' [p [D' P]]]. rewrite D in D'. injection D' as <-. eauto.
  - intros [p P]. eapply check_finds; eauto. rewrite G. apply full_succ.
Qed.
Print Assumptions C36_exact_without_sharing.
Definition copying : runtime := mkRuntime S keys (fun _ l => rev l).
Lemma copying_ok : runtime_ok copying.
Proof. split; [simpl; lia|]. split; intros; simpl; [apply Permutation_sym, Permutation_rev|apply Permutation_refl]. Qed.
Example C36_example : let d := graph_of "a -> b 'x' | 'y'; b -> c?; c -> d; d -> a | 'z';" in
  runtime_ok plain_runtime /\ runtime_ok copying /\ cycle d ["a"; "b"; "c"; "d"]%string /\ ~ In ""%string (keys d) /\
  front_grammar 300 "a -> b 'x' | 'y'; b -> c?; c -> d; d -> a | 'z';" = COk (inl (Invalid [PossibleCycleDetected])).
Proof.
  split; [exact plain_runtime_ok|]. split; [exact copying_ok|]. split.
  - split; [apply cycle_nodup; reflexivity|]. exists "a"%string. edges.
  - split; [vm_compute; intuition discriminate|vm_compute; reflexivity].
Qed.

(** C37: but a cycle of three rules can be missed: here two iteration orders of the same maps, with
    slices that double as Go's do, once accept and once reject the same text; parsing with the
    accepted grammar never ends, on any input. *)
Definition tricky : string := "a -> b|d; b -> c|d; c -> a|d; d -> 'x';".
Definition backwards : runtime := mkRuntime doubling keys (fun _ l => rev l).
Lemma backwards_ok : runtime_ok backwards.
Proof. split; [exact doubling_grows|]. split; intros; simpl; [apply Permutation_sym, Permutation_rev|apply Permutation_refl]. Qed.
Definition grammar_of (x : string) : grammar := match front_grammar 300 x with COk (inr g) => g | _ => [] end.

Ltac body H :=
  let L := fresh "L" in let A := fresh "A" in
  inversion H as [? ? ? ? ? L A|? ? ? ? ? L A]; subst; clear H; cbn in L; try discriminate L;
  injection L as <-; inversion A; subst; clear A.
Definition among (g : grammar) (rs : list string) : calls := fun gs vs r s => gs = [g] /\ In r rs /\ in_range s.
(** Every one of the rules runs another one of them, on every input. *)
Definition left_grammar (g : grammar) (rs : list string) : Prop := endless regex_engine (among g rs).
Lemma left_hangs : forall g rs, left_grammar g rs -> compile regex_engine g = COk (parsers_of g) -> readable g -> NoDup (keys g) ->
  callable_grammar g = true -> patterns_grammar (well_grouped regex_engine) g ->
  forall rnd r s f, In r rs -> lookup r g <> None -> in_range s -> drawn_ok rnd (draws (plain_call regex_engine rnd) f (parsers_of g) r s) ->
  fst (parse_rule (plain_call regex_engine rnd) f (parsers_of g) r s) = RFuel.
Proof.
  intros g rs LG C RD ND CA PA rnd r s f I L R D.
  apply (endless_hangs_callable (plain_call regex_engine rnd) g (parsers_of g) eq_refl
    ltac:(split; [exact regex_engine_ok|split; intros; discriminate]) C RD ND CA PA _ LG r s R L); auto.
  split; auto.
Qed.
Definition gtricky : grammar := Eval vm_compute in grammar_of tricky.
Lemma gtricky_left : left_grammar gtricky ["a"; "b"; "c"]%string.
Proof.
  intros gs vs x s [-> [I R]] gs' t RB. simpl in I.
  destruct I as [<-|[<-|[<-|[]]]]; body RB; apply en_oneof, ea_here, en_rule; split; auto; simpl; auto.
Qed.
Theorem C37_missed_cycle_refuted : exists x p g rt rt',
  cycle (graph_of x) p /\ runtime_ok rt /\ rt_grow rt = doubling /\ runtime_ok rt' /\ rt_grow rt' = doubling /\
  build_text (with_runtime rt (desk [])) wbnf_front 9 300 (bs x) = COk (inr g) /\
  build_text (with_runtime rt' (desk [])) wbnf_front 9 300 (bs x) = COk (inl (Invalid [PossibleCycleDetected])) /\
  compile regex_engine g = COk (parsers_of g) /\
  forall rnd r s f, In r p -> in_range s -> drawn_ok rnd (draws (plain_call regex_engine rnd) f (parsers_of g) r s) ->
    fst (parse_rule (plain_call regex_engine rnd) f (parsers_of g) r s) = RFuel.
Proof.
  exists tricky, ["a"; "b"; "c"]%string, gtricky, plain_runtime, backwards.
  split. { split; [apply cycle_nodup; reflexivity|]. exists "a"%string. edges. }
  split; [exact plain_runtime_ok|]. split; [reflexivity|]. split; [exact backwards_ok|]. split; [reflexivity|].
  split; [vm_compute; reflexivity|]. split; [vm_compute; reflexivity|]. split; [vm_compute; reflexivity|].
  intros rnd r s f I R D. eapply left_hangs; eauto using gtricky_left.
  - split; reflexivity.
  - apply nodup_b_ok. reflexivity.
  - apply patterns_grammar_b_ok. vm_compute. reflexivity.
  - simpl in I. destruct I as [<-|[<-|[<-|[]]]]; discriminate.
Qed.
Print Assumptions C37_missed_cycle_refuted.

(** C38: left recursion is not seen behind +, behind a delimiter, after an empty literal, after an optional group or
    in a look-ahead: these texts are accepted under every iteration order, and parsing with the
    grammar never ends, on any input. *)
Definition hidden : list string :=
  ["a -> a+;"; "a -> a:',';"; "a -> '' a;"; "a -> ('x'?) a;"; "a -> (?=a) 'x';"]%string.
Definition gplus : grammar := Eval vm_compute in grammar_of "a -> a+;".
Definition gdelim : grammar := Eval vm_compute in grammar_of "a -> a:',';".
Definition gempty : grammar := Eval vm_compute in grammar_of "a -> '' a;".
Definition gopt : grammar := Eval vm_compute in grammar_of "a -> ('x'?) a;".
Definition glook : grammar := Eval vm_compute in grammar_of "a -> (?=a) 'x';".
Lemma in_range_shows : forall s, in_range s -> exists t, shows s t.
Proof.
  intros s (o & i & n & W). pose proof (window_slice _ _ _ _ W) as SL. destruct W as [W _].
  unfold shows, sstring. rewrite W. eauto.
Qed.
Lemma gplus_left : left_grammar gplus ["a"]%string.
Proof.
  intros gs vs x s [-> [I R]] gs' t RB. destruct I as [<-|[]]; body RB.
  apply en_quant, er_here; [left; reflexivity|]. apply en_rule. split; simpl; auto.
Qed.
Lemma gdelim_left : left_grammar gdelim ["a"]%string.
Proof.
  intros gs vs x s [-> [I R]] gs' t RB. destruct I as [<-|[]]; body RB.
  apply en_delim, en_seq, es_here, en_seq, es_here, en_rule. split; simpl; auto.
Qed.
Lemma glook_left : left_grammar glook ["a"]%string.
Proof.
  intros gs vs x s [-> [I R]] gs' t RB. destruct I as [<-|[]]; body RB.
  apply en_seq, es_here, en_look, en_rule. split; simpl; auto.
Qed.
Lemma gempty_left : left_grammar gempty ["a"]%string.
Proof.
  intros gs vs x s [-> [I R]] gs' t RB. destruct I as [<-|[]]; body RB.
  destruct (in_range_shows s R) as [u U].
  destruct (literal_peg regex_engine gempty vs [] s u regex_engine_ok eq_refl eq_refl R U) as [A _].
  destruct (A u eq_refl) as (l & s' & P & _ & R').
  apply en_seq. eapply es_next; [apply P_cut; exact P|]. apply es_here, en_rule. split; simpl; auto.
Qed.
Lemma gopt_left : left_grammar gopt ["a"]%string.
Proof.
  intros gs vs x s [-> [I R]] gs' t RB. destruct I as [<-|[]]; body RB.
  destruct (in_range_shows s R) as [u U].
  destruct (literal_peg regex_engine gopt vs (bs "x") s u regex_engine_ok eq_refl eq_refl R U) as [A B].
  apply en_seq. destruct (has_prefix (bs "x") u) eqn:HP.
  - apply has_prefix_iff in HP as [r ->]. destruct (A r eq_refl) as (l & s' & P & _ & R').
    eapply es_next; [apply P_quant; eapply PR_more; [right; simpl; lia|apply P_cut; exact P|]|].
    + apply (PR_full regex_engine [gopt] vs "" 0 1 (TCut (TS (bs "x"))) ([] ++ [Leaf l]) s'). intros [X|X]; simpl in X; lia.
    + apply es_here, en_rule. split; simpl; auto.
  - assert (N : ~ exists r, u = bs "x" ++ r) by (intros X; apply has_prefix_iff in X; congruence).
    eapply es_next; [apply P_quant; apply (PR_stop regex_engine [gopt] vs "" 0 1 (TCut (TS (bs "x"))) [] s);
      [right; simpl; lia|apply P_cut; exact (B N)]|].
    apply es_here, en_rule. split; simpl; auto.
Qed.
Definition accepted_but_endless (x : string) (g : grammar) : Prop :=
  (forall rt, runtime_ok rt -> build_text (with_runtime rt (desk [])) wbnf_front 9 300 (bs x) = COk (inr g)) /\
  compile regex_engine g = COk (parsers_of g) /\
  forall rnd s f, in_range s -> drawn_ok rnd (draws (plain_call regex_engine rnd) f (parsers_of g) "a" s) ->
    fst (parse_rule (plain_call regex_engine rnd) f (parsers_of g) "a" s) = RFuel.
Definition ast_of_text (x : string) : anode := match front_ast 300 x with COk (inr n) => n | _ => ABranch [] end.
Lemma accepted_endless : forall x g, load_text (desk []) wbnf_front 9 300 (bs x) = COk (inr (ast_of_text x)) ->
  probe (w_engine (desk [])) 300 (ast_of_text x) = Some ([], [("a"%string, [])], g) -> keys g = ["a"%string] ->
  left_grammar g ["a"]%string -> compile regex_engine g = COk (parsers_of g) -> readable g ->
  callable_grammar g = true -> patterns_grammar (well_grouped regex_engine) g -> accepted_but_endless x g.
Proof.
  intros x g L P K LG C RD CA PA. split; [|split; auto].
  - intros rt OK. apply (text_accepted (desk []) wbnf_front 9 300 (bs x) _ _ _ g L P eq_refl); auto.
    apply descends_acyclic with (rank := fun _ => 0). intros y l z Y Z. simpl in Y.
    destruct (String.eqb y "a"); [injection Y as <-; contradiction|discriminate].
  - intros rnd s f R D. eapply left_hangs; eauto; [rewrite K; repeat constructor; auto|now left|].
    destruct g as [|[k u] [|]]; try discriminate. injection K as ->. discriminate.
Qed.
Theorem C38_hidden_left_recursion_refuted : exists xs, xs = hidden /\ Forall (fun x => exists g, accepted_but_endless x g) xs.
Proof.
  exists hidden. split; [reflexivity|].
  repeat constructor; [exists gplus|exists gdelim|exists gempty|exists gopt|exists glook].
  all: apply accepted_endless;
    [vm_compute; reflexivity|vm_compute; reflexivity|reflexivity|
     first [exact gplus_left|exact gdelim_left|exact gempty_left|exact gopt_left|exact glook_left]|
     vm_compute; reflexivity|split; reflexivity|reflexivity|apply patterns_grammar_b_ok; vm_compute; reflexivity].
Qed.
Print Assumptions C38_hidden_left_recursion_refuted.

(** Every grammar with rules that run each other on the same input without end hangs, however it was made. *)
Theorem C38_endless_hangs : forall c g ps, cf_esc c = None -> tame c -> compile (cf_eng c) g = COk ps -> readable g ->
  NoDup (keys g) -> callable_grammar g = true -> patterns_grammar (well_grouped (cf_eng c)) g ->
  forall X, endless (cf_eng c) X -> forall r s, in_range s -> lookup r g <> None -> X [g] [] r s ->
  forall f, drawn_ok (cf_rnd c) (draws c f ps r s) -> fst (parse_rule c f ps r s) = RFuel.
Proof. exact endless_hangs_callable. Qed.
Print Assumptions C38_endless_hangs.
Example C38_example : compile regex_engine gopt = COk (parsers_of gopt) /\ readable gopt /\ callable_grammar gopt = true /\
  endless regex_engine (among gopt ["a"]%string) /\ among gopt ["a"]%string [gopt] [] "a"%string (text "xxy").
Proof.
  split; [vm_compute; reflexivity|]. split; [split; reflexivity|]. split; [reflexivity|]. split; [exact gopt_left|].
  split; auto. split; [now left|apply text_range].
Qed.

(** C50: the converse fails as well: this grammar terminates on every input, and is rejected, because after a
    reference the check goes on with the next element of the sequence. *)
Definition harmless : string := "a -> b a?; b -> 'x';".
Definition gharmless : grammar := Eval vm_compute in match new_from_ast 300 (ast_of_text harmless) with COk g => g | _ => [] end.
Theorem C50_terminating_grammar_rejected_refuted : exists x n g,
  load_text (desk []) wbnf_front 9 300 (bs x) = COk (inr n) /\ new_from_ast 300 n = COk g /\
  compile regex_engine g = COk (parsers_of g) /\
  (forall rnd r s, in_range s -> exists f0 o, fst o <> RFuel /\
     forall f, f0 <= f -> parse_rule (plain_call regex_engine rnd) f (parsers_of g) r s = o) /\
  forall rt, runtime_ok rt -> rt_grow rt = doubling ->
    build_text (with_runtime rt (desk [])) wbnf_front 9 300 (bs x) = COk (inl (Invalid [PossibleCycleDetected])).
Proof.
  exists harmless, (ast_of_text harmless), gharmless.
  split; [vm_compute; reflexivity|]. split; [vm_compute; reflexivity|]. split; [vm_compute; reflexivity|]. split.
  - intros rnd r s R.
    apply (plain_terminates (plain_call regex_engine rnd) gharmless (parsers_of gharmless) eq_refl
      ltac:(split; [exact regex_engine_ok|split; intros; discriminate])); auto.
    apply (grammar_b_ok [] gharmless [("a", (1, true)); ("b", (0, true))]%string). vm_compute. reflexivity.
  - intros rt OK G.
    assert (L : load_text (desk []) wbnf_front 9 300 (bs harmless) = COk (inr (ast_of_text harmless))) by (vm_compute; reflexivity).
    assert (P : probe (w_engine (desk [])) 300 (ast_of_text harmless) = Some ([], graph_of harmless, gharmless)) by (vm_compute; reflexivity).
    refine (text_rejected (desk []) wbnf_front 9 300 (bs harmless) (ast_of_text harmless) [] (graph_of harmless) gharmless L P eq_refl _
      ["a"%string] _ rt OK _).
    + vm_compute. intuition discriminate.
    + split; [repeat constructor; auto|]. exists "a"%string. apply chain_one. eexists. split; [vm_compute; reflexivity|]. simpl. auto.
    + rewrite G. apply (full_doubling 0).
Qed.
Print Assumptions C50_terminating_grammar_rejected_refuted.
