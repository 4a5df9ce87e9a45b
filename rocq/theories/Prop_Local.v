(** Properties C14-C17, C22, C23: single constructs. *)
From Verif Require Import Base Scanner ScannerSpec Syntax Engine Resolve Compile Parse Regex RegexProofs
  PegSpec DerivSpec FlowSpec CutSpec LocalSpec ApiSpec
  FlowProofs LocalProofs ApiProofs Demo.
Local Open Scope Z_scope.

Definition parser_of (t : term) (rule : string) : parser :=
  match term_parser regex_engine t None rule with COk p => p | _ => PRule "" "" end.
Definition run (t : term) (x : string) : out := parse call 50 [] (parser_of t "r") empty_scope (text x) 0.

(** C14: a repetition is a run of matches of its body, within the bounds, and it stops at the
    upper bound or where the body fails ... *)
Theorem C14_repetition_bounds : forall c f e rule mn mx q sc s k v s' k', cf_esc c = None ->
  parse c (S f) e (PQuant rule mn mx q) sc s k = (ROk v, s', k') ->
  exists cs sc' k0 k1, v = Node (tag_or rule quantTag) XNone cs /\ svals sc' = svals sc /\
    runs (parse c f e q sc') s k0 cs s' k1 /\
    (mn <= length cs)%nat /\ (mx = O \/ (length cs <= mx)%nat) /\
    ((mx <> O /\ length cs = mx) \/ exists er s2 k2, parse c f e q sc' s' k1 = (RErr er, s2, k2)).
Proof. exact quant_bounds. Qed.
Print Assumptions C14_repetition_bounds.

(** ... and it fails only with a fatal error of its body, or after too few matches. *)
Theorem C14_repetition_fails : forall c f e rule mn mx q sc s k er s' k', cf_esc c = None ->
  parse c (S f) e (PQuant rule mn mx q) sc s k = (RErr er, s', k') ->
  exists cs sc' k0 k1, svals sc' = svals sc /\ runs (parse c f e q sc') s k0 cs s' k1 /\
    ((exists e' s2, parse c f e q sc' s' k1 = (RErr e', s2, k') /\ (is_fatal e' = true \/ (length cs < mn)%nat)) \/
     (mx <> O /\ length cs = mx /\ (mx < mn)%nat)).
Proof. exact quant_fails. Qed.
Print Assumptions C14_repetition_fails.

Example C14_example :
  (exists v s', run (TQuant (TS (bs "ab")) 1 2) "ababab" = (ROk v, s', O) /\ shows s' (bs "ab") /\ length (leaves v) = 2%nat) /\
  (exists v s', run (TQuant (TS (bs "ab")) 1 0) "ababx" = (ROk v, s', O) /\ shows s' (bs "x") /\ length (leaves v) = 2%nat) /\
  (exists e s', run (TQuant (TS (bs "ab")) 3 0) "ababx" = (RErr e, s', O)) /\
  parser_of (TQuant (TS (bs "ab")) 1 2) "r" = PQuant "r" 1 2 (parser_of (TS (bs "ab")) "").
Proof.
  split; [do 2 eexists; split; [vm_compute; reflexivity|split; reflexivity]|].
  split; [do 2 eexists; split; [vm_compute; reflexivity|split; reflexivity]|].
  split; [do 2 eexists; vm_compute; reflexivity|reflexivity].
Qed.

(** C15: look-ahead succeeds with its body, fails with it, and never moves. *)
Theorem C15_look_ahead : forall c f e rule q sc s k, cf_esc c = None ->
  snd (fst (parse c (S f) e (PLook rule q) sc s k)) = s /\
  (forall v, (exists s1 k1, parse c f e q sc s k = (ROk v, s1, k1)) <->
     (exists k1, parse c (S f) e (PLook rule q) sc s k = (ROk (Node (tag_or rule lookaheadTag) XNone [v]), s, k1))) /\
  (forall er, (exists s1 k1, parse c f e q sc s k = (RErr er, s1, k1)) <->
     (exists k1, parse c (S f) e (PLook rule q) sc s k = (RErr er, s, k1))).
Proof. exact look_spec. Qed.
Print Assumptions C15_look_ahead.

Example C15_example :
  parser_of (TLookAhead (TS (bs "a"))) "r" = PLook "r" (parser_of (TS (bs "a")) "") /\
  (exists v, run (TLookAhead (TS (bs "a"))) "ab" = (ROk v, text "ab", O)) /\
  (exists e, run (TLookAhead (TS (bs "a"))) "b" = (RErr e, text "b", O)).
Proof. split; [reflexivity|]. split; eexists; vm_compute; reflexivity. Qed.

(** C16: a delimited list rule gives the items and separators of the input in order, edge
    separators marked by [Empty] on the outside and only where allowed, nested as asked ... *)
Theorem C16_delimited_rule : forall c, cf_esc c = None -> forall g ps, compile (cf_eng c) g = COk ps -> readable g ->
  forall f r t sep a cs ce s v s', lookup r g = Some (TDelim t sep a cs ce) ->
  drawn_ok (cf_rnd c) (draws c f ps r s) -> result (parse_rule c f ps r s) v s' ->
  exists items, listing (cf_eng c) [g] t sep cs ce s items s' /\ delim_result r a items v.
Proof. exact result_delim. Qed.
Print Assumptions C16_delimited_rule.

(** ... likewise for a list anywhere inside a grammar ... *)
Theorem C16_delimited_anywhere : forall E gs vs r t sep a cs ce s v s', derives E gs vs r (TDelim t sep a cs ce) s v s' ->
  exists items, listing E gs t sep cs ce s items s' /\ delim_result r a items v.
Proof. exact delim_listing. Qed.
Print Assumptions C16_delimited_anywhere.

(** ... and whatever the associativity, reading the tree from left to right gives the items
    back; nested nodes have three children. *)
Theorem C16_reading_order : forall r a items v, delim_result r a items v ->
  leaves v = flat_map leaves items /\
  (a = LeftToRight -> forall l s x, items = l ++ [s; x] -> l <> [] ->
     exists w, v = Node (tag_or r delimTag) (XAssoc LeftToRight) [w; s; x] /\ nest_left (tag_or r delimTag) l w) /\
  (a = RightToLeft -> forall x s l, items = x :: s :: l -> l <> [] ->
     exists w, v = Node (tag_or r delimTag) (XAssoc RightToLeft) [x; s; w] /\ nest_right (tag_or r delimTag) l w).
Proof. exact delim_reading. Qed.
Print Assumptions C16_reading_order.

Definition lists (a : assoc) : grammar := [("l"%string, TDelim (TRE (bs "[a-z]")) (TS (bs ",")) a true true)].
Definition item (x : string) (i : Z) : tree := Leaf (slice (text x) i (i + 1)).
Example C16_example :
  compile regex_engine (lists LeftToRight) = COk (parsers_of (lists LeftToRight)) /\ readable (lists LeftToRight) /\
  (exists s', parse_rule call 50 (parsers_of (lists NonAssociative)) "l" (text ",a,b") =
     (ROk (Node "l" (XAssoc NonAssociative) [Empty; item ",a,b" 0; item ",a,b" 1; item ",a,b" 2; item ",a,b" 3]), s')) /\
  (exists s', parse_rule call 50 (parsers_of (lists LeftToRight)) "l" (text "a,b,") =
     (ROk (Node "l" (XAssoc LeftToRight)
        [Node "l" (XAssoc LeftToRight) [item "a,b," 0; item "a,b," 1; item "a,b," 2]; item "a,b," 3; Empty]), s')) /\
  (exists s', parse_rule call 50 (parsers_of (lists RightToLeft)) "l" (text "a,b,c") =
     (ROk (Node "l" (XAssoc RightToLeft) [item "a,b,c" 0; item "a,b,c" 1;
        Node "l" (XAssoc RightToLeft) [item "a,b,c" 2; item "a,b,c" 3; item "a,b,c" 4]]), s')).
Proof.
  split; [reflexivity|]. split; [split; reflexivity|]. split; [eexists; vm_compute; reflexivity|].
  split; eexists; vm_compute; reflexivity.
Qed.

(** C17: a back reference matches exactly the text of the bound value. *)
Theorem C17_back_reference : forall c, cf_esc c = None -> engine_ok (cf_eng c) ->
  forall ident d v x sc, lookup ident (svals sc) = Some v -> bound_value v x -> literal_leaves (cf_eng c) v ->
  exists f0, forall f e s k txt, (f0 <= f)%nat -> in_range s -> shows s txt ->
    (forall r, txt = x ++ r -> exists v' s', parse c f e (PREF ident d) sc s k = (ROk v', s', k) /\
       same_shape v' v /\ leaf_texts v' = leaf_texts v /\ shows s' r /\ forward s s') /\
    ((~ exists r, txt = x ++ r) -> exists er s', parse c f e (PREF ident d) sc s k = (RErr er, s', k)).
Proof. exact back_reference. Qed.
Print Assumptions C17_back_reference.

Definition tagged : grammar :=
  [("t"%string, TSeq [TS (bs "<"); TNamed "n" (TSeq [TRE (bs "[a-z]"); TRE (bs "[0-9]")]); TS (bs ">"); TREF "n" None])].
Example C17_example :
  (let v := Node "n" XNone [item "a1" 0; item "a1" 1] in
   bound_value v (bs "a1") /\ literal_leaves regex_engine v) /\
  leaf_strings (parse_rule call 50 (parsers_of tagged) "t" (text "<a1>a1")) = Some ["<"; "a"; "1"; ">"; "a"; "1"]%string /\
  leaf_strings (parse_rule call 50 (parsers_of tagged) "t" (text "<a1>a2")) = None.
Proof.
  split; [split|].
  - apply (bv_node "n" XNone _ [bs "a"; bs "1"]). constructor; [constructor; reflexivity|].
    constructor; [constructor; reflexivity|constructor].
  - intros s x _ _. reflexivity.
  - split; vm_compute; reflexivity.
Qed.

(** C22: literals. *)
Theorem C22_literal_exact : forall c f e rule x sc s k t, cf_esc c = None -> engine_ok (cf_eng c) ->
  re_lit_ok (cf_eng c) x = true -> in_range s -> shows s t ->
  exists p, term_parser (cf_eng c) (TS x) None rule = COk p /\
  (forall r, t = x ++ r -> exists l s', parse c (S f) e p sc s k = (ROk (Leaf l), s', k) /\
     shows l x /\ shows s' r /\ forward s s' /\ offset l = offset s) /\
  ((~ exists r, t = x ++ r) -> exists er, parse c (S f) e p sc s k = (RErr er, s, k) /\
     (er = EParse rule \/ exists cp, er = EFatal rule cp)).
Proof. exact literal_parse. Qed.
Print Assumptions C22_literal_exact.

Example C22_example :
  engine_ok regex_engine /\ re_lit_ok regex_engine (bs "a.*b[\") = true /\
  (exists l s', run (TS (bs "a.*b[\")) "a.*b[\c" = (ROk (Leaf l), s', O) /\ shows l (bs "a.*b[\") /\ shows s' (bs "c")) /\
  (exists er, run (TS (bs "a.*b[\")) "axxb[\" = (RErr er, text "axxb[\", O)).
Proof.
  split; [exact regex_engine_ok|]. split; [reflexivity|]. split.
  - do 2 eexists. split; [vm_compute; reflexivity|split; reflexivity].
  - eexists. vm_compute. reflexivity.
Qed.

(** C23: regexp terms, by the number of capture groups of the pattern: none, the leaf is the
    whole match; one, the leaf is that group; two or more, a match panics. *)
Theorem C23_capture_groups_partial : forall c f e rule x sc s k t, cf_esc c = None -> engine_ok (cf_eng c) ->
  re_valid (cf_eng c) x = true -> re_valid (cf_eng c) (anchor ++ group x) = true -> in_range s -> shows s t ->
  exists p, term_parser (cf_eng c) (TRE x) None rule = COk p /\
  (re_find (cf_eng c) (anchor ++ group x) t = None -> exists er, parse c (S f) e p sc s k = (RErr er, s, k)) /\
  (forall locs, re_find (cf_eng c) (anchor ++ group x) t = Some locs ->
     exists b gs, locs = (0, b) :: (0, b) :: gs /\ 0 <= b <= blen t /\ length gs = re_groups (cf_eng c) x /\
       match gs with
       | [] => parse c (S f) e p sc s k = (ROk (Leaf (slice s 0 b)), skip s b, k)
       | [g] => parse c (S f) e p sc s k = (ROk (Leaf (slice s (fst g) (snd g))), skip s b, k) /\ loc_ok 0 b g
       | _ => parse c (S f) e p sc s k = (RPanic, s, k)
       end).
Proof. exact re_parse. Qed.
Print Assumptions C23_capture_groups_partial.

Example C23_example :
  re_valid regex_engine (bs "<([a-z]+)>") = true /\ re_valid regex_engine (anchor ++ group (bs "<([a-z]+)>")) = true /\
  re_groups regex_engine (bs "<([a-z]+)>") = 1%nat /\
  (exists l s', run (TRE (bs "<([a-z]+)>")) "<ab>c" = (ROk (Leaf l), s', O) /\ shows l (bs "ab") /\ shows s' (bs "c")) /\
  (exists l s', run (TRE (bs "[a-z]+")) "ab>" = (ROk (Leaf l), s', O) /\ shows l (bs "ab") /\ shows s' (bs ">")).
Proof.
  split; [reflexivity|]. split; [reflexivity|]. split; [reflexivity|].
  split; do 2 eexists; (split; [vm_compute; reflexivity|split; reflexivity]).
Qed.

(** The first group does not always populate the node: two groups panic ... *)
Theorem C23_two_groups_refuted : exists x t, re_valid regex_engine x = true /\
  (exists locs, re_find regex_engine x (bs t) = Some locs) /\ fst (fst (run (TRE x) t)) = RPanic.
Proof. exists (bs "(a)(b)"), "ab"%string. split; [reflexivity|]. split; [eexists|]; vm_compute; reflexivity. Qed.
Print Assumptions C23_two_groups_refuted.

(** ... and a group that does not take part gives a leaf that starts before the match. *)
Theorem C23_unset_group_refuted : exists x t s l s', re_valid regex_engine x = true /\
  in_range s /\ shows s (bs t) /\
  parse call 50 [] (parser_of (TRE x) "r") empty_scope s 0 = (ROk (Leaf l), s', O) /\ offset l < offset s.
Proof.
  exists (bs "a|(b)"), "a"%string, (skip (text "xa") 1). do 2 eexists. split; [reflexivity|].
  split; [exists (mkSource (bs "xa") ""), 1%nat, 1%nat; repeat split; simpl; lia|].
  split; [reflexivity|]. split; [vm_compute; reflexivity|]. simpl. lia.
Qed.
Print Assumptions C23_unset_group_refuted.
