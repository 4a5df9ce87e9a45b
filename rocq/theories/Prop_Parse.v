(** Properties C08-C13, C18-C20: whole parses. *)
From Verif Require Import Base Scanner ScannerSpec Syntax Engine Resolve Compile Parse Regex RegexProofs
  PegSpec DerivSpec FlowSpec CutSpec FordSpec LocalSpec ApiSpec
  FlowProofs TopProofs CutProofs DrawProofs FordProofs ApiProofs Demo.
Local Open Scope Z_scope.

(** C08: success means all input was consumed ... *)
Theorem C08_success_consumes_all : forall c f ps r s v s', parse_rule c f ps r s = (ROk v, s') ->
  matches c f ps r s v s' /\ shows s' [].
Proof. exact full_consumption. Qed.
Print Assumptions C08_success_consumes_all.

(** ... the unconsumed-input error carries the tree of the match and exactly what remains ... *)
Theorem C08_unconsumed_reports_rest : forall c f ps r s residue v s', no_leftovers c ->
  parse_rule c f ps r s = (RErr (EUnconsumed residue v), s') ->
  residue = s' /\ matches c f ps r s v s' /\ exists t, t <> [] /\ shows s' t.
Proof. exact unconsumed. Qed.
Print Assumptions C08_unconsumed_reports_rest.

(** ... which is a proper suffix of the text ... *)
Theorem C08_residue_is_suffix : forall c f ps r s residue v s' x, tame c -> no_leftovers c -> in_range s -> shows s x ->
  parse_rule c f ps r s = (RErr (EUnconsumed residue v), s') ->
  exists eaten rest, x = eaten ++ rest /\ rest <> [] /\ shows residue rest.
Proof. exact residue_suffix. Qed.
Print Assumptions C08_residue_is_suffix.

(** ... and a match always ends in one of the two, depending on whether text remains. *)
Theorem C08_match_decides : forall c f ps r s v s' t, matches c f ps r s v s' -> shows s' t ->
  parse_rule c f ps r s = (match t with [] => ROk v | _ => RErr (EUnconsumed s' v) end, s').
Proof. exact matched_outcome. Qed.
Print Assumptions C08_match_decides.

Lemma call_tame : tame call.
Proof. split; [exact regex_engine_ok|]. split; intros; discriminate. Qed.
Lemma call_no_leftovers : no_leftovers call.
Proof. intros s fn sc i residue te L. discriminate. Qed.

Example C08_example :
  leaf_strings (parse_rule call 50 (parsers_of sums) "e" (text "1+(2-3)")) =
    Some ["1"; "+"; "("; "2"; "-"; "3"; ")"]%string /\
  exists v s', parse_rule call 50 (parsers_of sums) "e" (text "1+2)4") = (RErr (EUnconsumed s' v), s') /\
    shows s' (bs ")4") /\ tame call /\ no_leftovers call.
Proof.
  split; [vm_compute; reflexivity|]. do 2 eexists. split; [vm_compute; reflexivity|].
  split; [reflexivity|]. split; [exact call_tame|exact call_no_leftovers].
Qed.

(** C09: every parser leaves the input somewhere ahead, in the same source, same end ... *)
Theorem C09_parsers_move_forward : forall c, tame c -> forall f e p sc s k, in_range s ->
  forall res s' k', parse c f e p sc s k = (res, s', k') -> res <> RPanic -> res <> RFuel -> forward s s'.
Proof. exact parse_moves_forward. Qed.
Print Assumptions C09_parsers_move_forward.

(** ... and so does a whole [Parse] call. *)
Theorem C09_parse_moves_forward : forall c f ps r s res s', tame c -> in_range s ->
  parse_rule c f ps r s = (res, s') -> res <> RPanic -> res <> RFuel -> forward s s'.
Proof. exact parse_rule_forward. Qed.
Print Assumptions C09_parse_moves_forward.

Example C09_example : tame call /\ in_range (text "1+x") /\
  (exists v s', parse_rule call 50 (parsers_of sums) "e" (text "1+x") = (RErr (EUnconsumed s' v), s') /\ offset s' = 1) /\
  exists e s', parse_rule call 50 (parsers_of sums) "e" (text "(1x") = (RErr e, s') /\ offset s' = 0 /\ forward (text "(1x") s'.
Proof.
  split; [exact call_tame|]. split; [apply text_range|]. split; [do 2 eexists; split; vm_compute; reflexivity|].
  do 2 eexists. split; [vm_compute; reflexivity|]. split; [reflexivity|].
  exists (mkSource (bs "(1x") ""), O, 3%nat, 0%nat. split; [apply (text_window "(1x")|]. split; [lia|]. apply (text_window "(1x").
Qed.

(** C10: the leaves are slices of the consumed input, in order, without overlap. *)
Theorem C10_leaves_ordered : forall c, cf_esc c = None -> forall g ps, compile (cf_eng c) g = COk ps -> readable g ->
  forall f r s v s', engine_ok (cf_eng c) -> in_range s ->
  patterns_grammar (participates (cf_eng c)) g -> no_look_grammar g = true ->
  drawn_ok (cf_rnd c) (draws c f ps r s) -> result (parse_rule c f ps r s) v s' ->
  exists o i n j, window s o i n /\ (j <= n)%nat /\ window s' o (i + j) (n - j) /\ ordered o i (i + j) (leaves v).
Proof. exact result_ordered. Qed.
Print Assumptions C10_leaves_ordered.

Lemma seqno_drawn : forall n, drawn_ok seqno n.
Proof. intros n. unfold seqno. split; intros; lia. Qed.
Lemma sums_no_groups : no_groups_grammar regex_engine sums.
Proof.
  split; [reflexivity|]. intros r t L. unfold sums in L. simpl in L.
  repeat match type of L with context [if ?b then _ else _] => destruct b; [inversion L; subst; vm_compute; auto 10|] end. discriminate.
Qed.

Example C10_example :
  compile regex_engine sums = COk (parsers_of sums) /\ readable sums /\
  patterns_grammar (participates regex_engine) sums /\ no_look_grammar sums = true /\
  drawn_ok (cf_rnd call) (draws call 50 (parsers_of sums) "e" (text "1+(2-3)")) /\
  exists v s', result (parse_rule call 50 (parsers_of sums) "e" (text "1+(2-3)")) v s' /\
    map offset (leaves v) = [0; 1; 2; 3; 4; 5; 6].
Proof.
  split; [reflexivity|]. split; [split; reflexivity|].
  split; [apply no_groups_participates; [exact regex_engine_ok|exact sums_no_groups]|]. split; [reflexivity|].
  split; [apply seqno_drawn|]. do 2 eexists. split; [left; vm_compute; reflexivity|reflexivity].
Qed.

(** C11: without .wrapRE, look-ahead and capture groups the leaves spell the consumed input. *)
Theorem C11_lossless : forall c, cf_esc c = None -> forall g ps, compile (cf_eng c) g = COk ps -> readable g ->
  forall f r s v s', engine_ok (cf_eng c) -> in_range s ->
  no_groups_grammar (cf_eng c) g -> no_look_grammar g = true ->
  drawn_ok (cf_rnd c) (draws c f ps r s) -> result (parse_rule c f ps r s) v s' ->
  exists txts rest, Forall2 shows (leaves v) txts /\ shows s (concat txts ++ rest) /\ shows s' rest.
Proof. exact result_lossless. Qed.
Print Assumptions C11_lossless.

Example C11_example :
  compile regex_engine sums = COk (parsers_of sums) /\ readable sums /\ no_groups_grammar regex_engine sums /\
  no_look_grammar sums = true /\
  exists v s', result (parse_rule call 50 (parsers_of sums) "e" (text "12-3)")) v s' /\
    Forall2 shows (leaves v) [bs "12"; bs "-"; bs "3"] /\ shows s' (bs ")").
Proof.
  split; [reflexivity|]. split; [split; reflexivity|]. split; [exact sums_no_groups|]. split; [reflexivity|].
  do 2 eexists. split; [right; vm_compute; reflexivity|]. split; [repeat constructor|reflexivity].
Qed.

(** C12: what parses is derivable. *)
Theorem C12_parses_are_derivations : forall c, cf_esc c = None -> forall g ps, compile (cf_eng c) g = COk ps -> readable g ->
  forall f r s v s', drawn_ok (cf_rnd c) (draws c f ps r s) ->
  result (parse_rule c f ps r s) v s' -> rule_derives (cf_eng c) g r s v s'.
Proof. exact result_derives. Qed.
Print Assumptions C12_parses_are_derivations.

Example C12_example :
  compile regex_engine cutty = COk (parsers_of cutty) /\ readable cutty /\
  draws call 50 (parsers_of cutty) "s" (text "ab") = 1%nat /\
  exists v s', result (parse_rule call 50 (parsers_of cutty) "s" (text "ab")) v s' /\
    v = Node "s" (XChoice 0) [Node "_" XNone [Leaf (slice (text "ab") 0 1); Leaf (slice (text "ab") 1 2)]].
Proof.
  split; [reflexivity|]. split; [split; reflexivity|]. split; [reflexivity|].
  do 2 eexists. split; [left; vm_compute; reflexivity|reflexivity].
Qed.

(** C13: without cut points the parser computes the PEG reading, both ways ... *)
Theorem C13_parser_is_peg : forall E g ps, compile E g = COk ps -> readable g ->
  hooked_grammar false g = true -> no_cut_grammar g = true -> forall rnd r s,
  (forall v s', shows s' [] ->
     ((exists f, parse_rule (plain_call E rnd) f ps r s = (ROk v, s')) <-> means E g r s (Succ v s'))) /\
  (forall v s' t, t <> [] -> shows s' t ->
     ((exists f, parse_rule (plain_call E rnd) f ps r s = (RErr (EUnconsumed s' v), s')) <-> means E g r s (Succ v s'))) /\
  ((exists f rule s', parse_rule (plain_call E rnd) f ps r s = (RErr (EParse rule), s')) <-> means E g r s Fail) /\
  (forall f s' e, parse_rule (plain_call E rnd) f ps r s = (RErr e, s') ->
     (exists rule, e = EParse rule) \/ exists t, e = EUnconsumed s' t).
Proof. exact uncut_peg. Qed.
Print Assumptions C13_parser_is_peg.

(** ... and as a recogniser it is exactly Ford's. *)
Theorem C13_textbook_peg : forall E g ps rnd, engine_ok E -> NoDup (keys g) -> textbook_grammar E g -> sound_rules g ->
  compile E g = COk ps -> forall r s x, in_range s -> shows s x ->
  ((exists f v s', parse_rule (plain_call E rnd) f ps r s = (ROk v, s')) <-> ford E g (TRule r) x (Some [])) /\
  (forall rest, rest <> [] ->
     ((exists f v residue s', parse_rule (plain_call E rnd) f ps r s = (RErr (EUnconsumed residue v), s') /\ shows residue rest)
       <-> ford E g (TRule r) x (Some rest))) /\
  ((exists f rule s', parse_rule (plain_call E rnd) f ps r s = (RErr (EParse rule), s')) <-> ford E g (TRule r) x None).
Proof. exact uncut_textbook. Qed.
Print Assumptions C13_textbook_peg.

Lemma sums_textbook : textbook_grammar regex_engine sums.
Proof.
  split; [|reflexivity]. intros r t L. unfold sums in L. simpl in L.
  repeat match type of L with context [if ?b then _ else _] => destruct b; [inversion L; subst; vm_compute; auto 10|] end. discriminate.
Qed.
Example C13_example :
  textbook_grammar regex_engine sums /\ NoDup (keys sums) /\ sound_rules sums /\
  readable sums /\ hooked_grammar false sums = true /\ no_cut_grammar sums = true /\
  compile regex_engine sums = COk (parsers_of sums) /\
  ford regex_engine sums (TRule "e") (bs "(1)+2)") (Some (bs ")")) /\
  ford regex_engine sums (TRule "e") (bs "(1+") None.
Proof.
  assert (ND : NoDup (keys sums)).
  { repeat constructor; simpl; intuition; discriminate. }
  assert (SR : sound_rules sums).
  { intros r t L. unfold sums in L. simpl in L.
    repeat match type of L with context [if ?b then _ else _] => destruct b; [inversion L; subst; right; reflexivity|] end. discriminate. }
  split; [exact sums_textbook|]. split; [exact ND|]. split; [exact SR|]. split; [split; reflexivity|].
  split; [reflexivity|]. split; [reflexivity|]. split; [reflexivity|]. split.
  - destruct (C13_textbook_peg regex_engine sums (parsers_of sums) seqno regex_engine_ok ND sums_textbook SR eq_refl "e"%string
      (text "(1)+2)") (bs "(1)+2)") (text_range _) (text_shows _)) as (_ & H & _).
    apply H; [discriminate|]. exists 50%nat. do 3 eexists. split; [vm_compute; reflexivity|reflexivity].
  - destruct (C13_textbook_peg regex_engine sums (parsers_of sums) seqno regex_engine_ok ND sums_textbook SR eq_refl "e"%string
      (text "(1+") (bs "(1+") (text_range _) (text_shows _)) as (_ & _ & H).
    apply H. exists 50%nat. do 2 eexists. vm_compute. reflexivity.
Qed.

(** C18: whatever a grammar with cut points parses, the grammar without them parses the same
    way; an ordinary failure stays one. *)
Theorem C18_cuts_only_prune : forall c g ps ps' refs f r s, cf_esc c = None ->
  compile (cf_eng c) g = COk ps -> compile (cf_eng c) (erase_grammar g) = COk ps' ->
  readable g -> tidy_grammar g = true -> hooked_grammar refs g = true ->
  (refs = true -> forall x, re_valid (cf_eng c) (anchor ++ group (quote_meta x)) = true) ->
  drawn_ok (cf_rnd c) (draws c f ps r s) ->
  exists f0, forall f' rnd, (f0 <= f')%nat ->
  match parse_rule c f ps r s with
  | (ROk v, s') => parse_rule (plain_call (cf_eng c) rnd) f' ps' r s = (ROk v, s')
  | (RErr (EUnconsumed s1 v), s') => parse_rule (plain_call (cf_eng c) rnd) f' ps' r s = (RErr (EUnconsumed s' v), s')
  | (RErr (EParse _), _) => exists rule s', parse_rule (plain_call (cf_eng c) rnd) f' ps' r s = (RErr (EParse rule), s')
  | _ => True
  end.
Proof. exact cuts_prune. Qed.
Print Assumptions C18_cuts_only_prune.

Example C18_example :
  compile regex_engine cutty = COk (parsers_of cutty) /\
  compile regex_engine (erase_grammar cutty) = COk (parsers_of (erase_grammar cutty)) /\
  readable cutty /\ tidy_grammar cutty = true /\ hooked_grammar true cutty = true /\
  (forall x, re_valid regex_engine (anchor ++ group (quote_meta x)) = true) /\
  leaf_strings (parse_rule call 50 (parsers_of cutty) "s" (text "ab")) = Some ["a"; "b"]%string /\
  leaf_strings (parse_rule call 50 (parsers_of (erase_grammar cutty)) "s" (text "ab")) = Some ["a"; "b"]%string /\
  leaf_strings (parse_rule call 50 (parsers_of cutty) "s" (text "ac")) = None /\
  leaf_strings (parse_rule call 50 (parsers_of (erase_grammar cutty)) "s" (text "ac")) = Some ["a"; "c"]%string.
Proof.
  split; [reflexivity|]. split; [reflexivity|]. split; [split; reflexivity|]. split; [reflexivity|]. split; [reflexivity|].
  split; [intros x; apply (ok_lit_valid _ regex_engine_ok); reflexivity|]. repeat split; vm_compute; reflexivity.
Qed.

(** C19: after a cut point has matched, failure of a later element of its sequence ends the
    parse, in every context that got there. *)
Theorem C19_cut_commits : forall E g ps refs r s gs vs rl pre x mid y post s0 vs1 s1 v s2 vs2 s3,
  compile E g = COk ps -> readable g -> hooked_grammar refs g = true ->
  (refs = true -> forall x, re_valid E (anchor ++ group (quote_meta x)) = true) ->
  reaches E [g] [] "" (TRule r) s gs vs rl (TSeq (pre ++ x :: mid ++ y :: post)) s0 ->
  elements E gs vs pre s0 vs1 s1 -> peg E gs vs1 "" x s1 (Succ v s2) -> commits gs x ->
  elements E gs (bind vs1 (label x) v) mid s2 vs2 s3 -> peg E gs vs2 "" y s3 Fail ->
  exists f0 n, forall rnd f, drawn_ok rnd n -> unreserved rnd n -> (f0 <= f)%nat ->
    draws (plain_call E rnd) f ps r s = n /\
    exists rule cp s', parse_rule (plain_call E rnd) f ps r s = (RErr (EFatal rule cp), s').
Proof. exact cut_commits_parse. Qed.
Print Assumptions C19_cut_commits.

Example C19_example : let g := cutty in let s := text "ac" in
  reaches regex_engine [g] [] "" (TRule "s") s [g] [] "" (TSeq ([] ++ TCut (TS (bs "a")) :: [] ++ TS (bs "b") :: [])) s /\
  peg regex_engine [g] [] "" (TCut (TS (bs "a"))) s (Succ (Leaf (slice s 0 1)) (skip s 1)) /\
  commits [g] (TCut (TS (bs "a"))) /\
  peg regex_engine [g] [] "" (TS (bs "b")) (skip s 1) Fail.
Proof.
  simpl. split; [|split; [|split]].
  - eapply R_rule; [eapply rb_here; [reflexivity|apply ab_end; discriminate]|].
    apply (R_oneof regex_engine [cutty] [] "s"%string []); [constructor|]. apply R_here.
  - apply P_cut. eapply P_lit; [reflexivity|]. apply (tok_one regex_engine _ _ (bs "ac") 1 (0, 1)); vm_compute; reflexivity.
  - constructor.
  - eapply P_lit; [reflexivity|]. apply (tok_fail regex_engine _ _ (bs "c")); vm_compute; reflexivity.
Qed.

(** C20: two collision-free streams give the same result ... *)
Theorem C20_ids_do_not_matter : forall c rnd2 n,
  drawn_ok (cf_rnd c) n -> drawn_ok rnd2 n -> unreserved (cf_rnd c) n -> unreserved rnd2 n ->
  ext_ok c (fun fn => blind fn /\ foreign (cf_rnd c) n fn /\ foreign rnd2 n fn) ->
  forall f ps r s res1 s1, parse_rule c f ps r s = (res1, s1) -> (draws c f ps r s <= n)%nat ->
  exists res2, parse_rule (with_rnd c rnd2) f ps r s = (res2, s1) /\ same_result res1 res2 /\
    draws (with_rnd c rnd2) f ps r s = draws c f ps r s.
Proof. exact parse_rule_rename. Qed.
Print Assumptions C20_ids_do_not_matter.

Example C20_example :
  drawn_ok seqno 1 /\ drawn_ok (fun i => 1000 - Z.of_nat i) 1 /\ unreserved seqno 1 /\ unreserved (fun i => 1000 - Z.of_nat i) 1 /\
  draws call 50 (parsers_of cutty) "s" (text "ac") = 1%nat /\
  fst (parse_rule call 50 (parsers_of cutty) "s" (text "ac")) = RErr (EFatal "" 2) /\
  fst (parse_rule (with_rnd call (fun i => 1000 - Z.of_nat i)) 50 (parsers_of cutty) "s" (text "ac")) = RErr (EFatal "" 1000).
Proof.
  split; [apply seqno_drawn|]. split; [split; intros; lia|]. split; [intros i L; unfold seqno; lia|].
  split; [intros i L; lia|]. repeat split; vm_compute; reflexivity.
Qed.

(** ... with colliding identifiers the outcome can change: here 7, 7, 7, ... accepts what
    distinct numbers reject. *)
Definition collide : grammar :=
  [("s"%string, TSeq [TCut (TS (bs "a")); TOneof [TSeq [TCut (TS (bs "x")); TS (bs "y")]; TSeq [TS (bs "x"); TS (bs "z")]]])].
Theorem C20_collisions_matter : exists g ps r s rnd,
  compile regex_engine g = COk ps /\
  (exists e s', parse_rule call 50 ps r s = (RErr e, s')) /\
  (exists v s', parse_rule (with_rnd call rnd) 50 ps r s = (ROk v, s')).
Proof.
  exists collide, (parsers_of collide), "s"%string, (text "axz"), (fun _ => 7).
  split; [reflexivity|]. split; do 2 eexists; vm_compute; reflexivity.
Qed.
Print Assumptions C20_collisions_matter.
