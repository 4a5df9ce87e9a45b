(** Properties C29 to C35: the ast package. *)
From Verif Require Import Base Scanner ScannerSpec Syntax Engine Resolve Compile Parse Regex PegSpec CutSpec ApiSpec ApiProofs
  DerivSpec StackSpec Demo WbnfGrammar ChainProofs Prop_Compile Ast AstSpec AstProofs AstNodeProofs AstParse AstCount AstConvert AstFits AstLists AstBack AstDemo.
Local Open Scope string_scope.

(** C29: converting the result of a parse keeps its leaves: each leaf of the tree is in the AST
    once, and the leaves under one name stay in order. *)
Theorem C29_parsed_leaves : forall c, cf_esc c = None -> forall g ps, compile (cf_eng c) g = COk ps -> readable g ->
  forall f r s v s', drawn_ok (cf_rnd c) (draws c f ps r s) -> result (parse_rule c f ps r s) v s' ->
  forall n b g', from_parser_node n g v = COk (b, g') -> reads (ABranch b) (leaves v).
Proof. exact parsed_reads. Qed.
Print Assumptions C29_parsed_leaves.

(** The same for any tree whose choices have one child, parsed or not. *)
Theorem C29_leaves : forall f g e b g', no_ext_grammar g = true -> regular e ->
  from_parser_node f g e = COk (b, g') -> reads (ABranch b) (leaves e).
Proof. exact from_parser_node_reads. Qed.
Print Assumptions C29_leaves.

(** With stacks: the caller converts with the grammar of the compiled parsers. *)
Theorem C29_compiled_leaves : forall c, cf_esc c = None -> forall g ps, compile (cf_eng c) g = COk ps -> readable (p_grammar ps) ->
  forall f r s v s', drawn_ok (cf_rnd c) (draws c f ps r s) -> result (parse_rule c f ps r s) v s' ->
  forall n b g', from_parser_node n (p_grammar ps) v = COk (b, g') -> reads (ABranch b) (leaves v).
Proof. exact compiled_reads. Qed.
Print Assumptions C29_compiled_leaves.

(** node_test.go's grammar a -> (x="1"|y="2")* *)
Definition ones_twos : grammar := [("a", Any (TOneof [TNamed "x" (lit "1"); TNamed "y" (lit "2")]))].
(** a bracketed list *)
Definition listing : grammar :=
  [("a", TSeq [lit "("; TRule "b"; lit ")"]); ("b", NonAssoc (TRule "c") (lit ",")); ("c", TRE (bs "[a-z]+"))].
Example C29_example :
  compile regex_engine ones_twos = COk (parsers_of ones_twos) /\ readable ones_twos /\
  draws call 300 (parsers_of ones_twos) "a" (text "1212") = 0%nat /\
  shown_ast ones_twos "a" "1212" = Some (COk (Br
    [("@rule", One (Dat (DRule "a")));
     ("@choice", Many [Dat (DChoice 0); Dat (DChoice 1); Dat (DChoice 0); Dat (DChoice 1)]);
     ("x", Many [Br [("", One (Txt "1"))]; Br [("", One (Txt "1"))]]);
     ("y", Many [Br [("", One (Txt "2"))]; Br [("", One (Txt "2"))]])])) /\
  shown_ast listing "a" "(x,yz)" = Some (COk (Br
    [("@rule", One (Dat (DRule "a")));
     ("", Many [Txt "("; Txt ")"]);
     ("b", One (Br [("c", Many [Br [("", One (Txt "x"))]; Br [("", One (Txt "yz"))]]); ("", Many [Txt ","])]))])).
Proof. repeat split. Qed.

(** C30: a name the counters of a term call single occurs at most once in every tree of the term. *)
Theorem C30_counters_sound : forall t cc n, new_counters (Some t) = COk cc -> single (ctr cc n) -> no_stack t = true ->
  forall gs v ks, fits gs t v ks -> occ ks n <= 1.
Proof. exact single_once. Qed.
Print Assumptions C30_counters_sound.

(** Trees made by parsing are trees of the compiled grammar ... *)
Theorem C30_parsed_fit : forall c, cf_esc c = None -> forall g ps, compile (cf_eng c) g = COk ps ->
  readable (p_grammar ps) -> smooth_grammar (p_grammar ps) ->
  forall f r s v s', drawn_ok (cf_rnd c) (draws c f ps r s) -> result (parse_rule c f ps r s) v s' ->
  exists t ks, lookup r (p_grammar ps) = Some t /\ fits [p_grammar ps] t v ks.
Proof. exact compiled_fits. Qed.
Print Assumptions C30_parsed_fit.

(** ... what the AST of a rule records as one child occurs at most once in every tree of the rule ... *)
Theorem C30_recorded_single : forall G r t x cs ks, smooth_grammar G -> coherent G -> r <> WrapRE -> lookup r G = Some t ->
  fits [G] t (Node r x cs) ks ->
  forall f b g' k n, from_parser_node f G (Node r x cs) = COk (b, g') -> lookup k b = Some (One n) -> k <> "@rule" ->
  forall v ks', fits [G] t v ks' -> length (filter (fun m => String.eqb (stem m) k) ks') <= 1.
Proof. exact recorded_single. Qed.
Print Assumptions C30_recorded_single.

(** ... it has as many children under a name as the tree gives to that name (the levels of a stack share their name) ... *)
Theorem C30_recorded_all : forall G r t x cs ks, smooth_grammar G -> coherent G -> r <> WrapRE -> lookup r G = Some t ->
  fits [G] t (Node r x cs) ks ->
  forall f b g' k, from_parser_node f G (Node r x cs) = COk (b, g') -> prefix "@" k = false ->
  length (children_at k b) = length (filter (fun m => String.eqb (stem m) k) ks).
Proof. exact recorded_all. Qed.
Print Assumptions C30_recorded_all.

(** ... and the conversion never panics: neither on a tree of the grammar nor on what parsing gives. *)
Theorem C30_trees_convert : forall G r t v ks, smooth_grammar G -> coherent G -> r <> WrapRE -> lookup r G = Some t ->
  fits [G] t v ks -> (exists s, v = Leaf s) \/ (exists x cs, v = Node r x cs) ->
  exists N, forall f, N <= f -> exists b g', from_parser_node f G v = COk (b, g').
Proof. exact fitting_converts. Qed.
Print Assumptions C30_trees_convert.

Theorem C30_parsed_convert : forall c, cf_esc c = None -> forall g ps, compile (cf_eng c) g = COk ps ->
  readable (p_grammar ps) -> smooth_grammar (p_grammar ps) -> coherent (p_grammar ps) ->
  forall r, r <> WrapRE -> r <> "" -> (forall t, rule_body [p_grammar ps] r [p_grammar ps] t -> own_tag t = true) ->
  forall f s v s', drawn_ok (cf_rnd c) (draws c f ps r s) -> result (parse_rule c f ps r s) v s' ->
  exists N, forall n, N <= n -> exists b g', from_parser_node n (p_grammar ps) v = COk (b, g').
Proof. exact compiled_converts. Qed.
Print Assumptions C30_parsed_convert.

(** wbnf's own grammar: every text it parses converts. *)
Lemma wbnf_smooth : readable wbnf_chain /\ smooth_grammar wbnf_chain /\ coherent wbnf_chain.
Proof.
  split; [split; vm_compute; reflexivity|].
  split; [apply smooth_grammar_b_ok; vm_compute; reflexivity|apply coherent_b_ok; vm_compute; reflexivity].
Qed.
Lemma wbnf_own : forall t, rule_body [wbnf_chain] "grammar" [wbnf_chain] t -> own_tag t = true.
Proof.
  intros t RB. inversion RB as [? ? ? u ? L A|? ? ? ? ? L _]; subst; [|discriminate].
  inversion L; subst. inversion A; subst. reflexivity.
Qed.
Theorem C30_wbnf_converts : forall rnd f s v s',
  drawn_ok rnd (draws (plain_call regex_engine rnd) f wbnf_parsers "grammar" s) ->
  result (parse_rule (plain_call regex_engine rnd) f wbnf_parsers "grammar" s) v s' ->
  exists N, forall n, N <= n -> exists b g', from_parser_node n wbnf_chain v = COk (b, g').
Proof.
  intros rnd f s v s'. destruct wbnf_smooth as (R & S & C).
  exact (compiled_converts (plain_call regex_engine rnd) eq_refl wbnf_grammar wbnf_parsers wbnf_compiles R S C
    "grammar" ltac:(discriminate) ltac:(discriminate) wbnf_own f s v s').
Qed.
Print Assumptions C30_wbnf_converts.

Example C30_example :
  readable listing /\ smooth_grammar listing /\ coherent listing /\ p_grammar (parsers_of listing) = listing /\
  (forall t, rule_body [listing] "a" [listing] t -> own_tag t = true) /\
  match conversion listing "a" "(x,yz)" with
  | Some (COk (b, _)) => exists n, lookup "b" b = Some (One n)
  | _ => False
  end /\
  match conversion wbnf_grammar "grammar" "a -> b:',' c; b -> 'x'* ;" with
  | Some (COk (b, _)) => exists x y, lookup "stmt" b = Some (Many [x; y])
  | _ => False
  end.
Proof.
  split; [split; reflexivity|]. split; [apply smooth_grammar_b_ok; reflexivity|]. split; [apply coherent_b_ok; reflexivity|].
  split; [reflexivity|]. split.
  - intros t RB. inversion RB as [? ? ? u ? L A|? ? ? ? ? L _]; subst; [|discriminate].
    inversion L; subst. inversion A; subst. reflexivity.
  - split; [vm_compute; eexists; reflexivity|]. vm_compute. do 2 eexists. reflexivity.
Qed.

(** C31: no amount of work makes an AST of a left or right associative list with a separator
    whose innermost item is a node and no list. *)
Theorem C31_lists_never_convert : forall g r t sep a cs ce, r <> "" -> lookup r g = Some (TDelim t sep a cs ce) ->
  forall items v, delim_result r a items v -> 1 < length items ->
  match a with
  | LeftToRight => exists x l, items = x :: l /\ no_list x
  | RightToLeft => exists l x, (items = l ++ [x])%list /\ no_list x
  | NonAssociative => False
  end ->
  forall n b g', from_parser_node n g v <> COk (b, g').
Proof. exact lists_never_convert. Qed.
Print Assumptions C31_lists_never_convert.

(** So trees of a grammar need not convert: sums of numbers ... *)
Theorem C31_left_list_refuted : exists g r x, conversion g r x = Some CPanic /\
  exists t sep, lookup r g = Some (TDelim t sep LeftToRight false false).
Proof. exists sums, "e", "1+2-3". split; [vm_compute; reflexivity|]. do 2 eexists. reflexivity. Qed.
Print Assumptions C31_left_list_refuted.

Definition powers : grammar := [("a", TDelim (TRule "b") (lit "^") RightToLeft false false); ("b", TQuant (lit "1") 1 0)].
Theorem C31_right_list_refuted : exists g r x, conversion g r x = Some CPanic /\
  exists t sep, lookup r g = Some (TDelim t sep RightToLeft false false).
Proof. exists powers, "a", "11^1". split; [vm_compute; reflexivity|]. do 2 eexists. reflexivity. Qed.
Print Assumptions C31_right_list_refuted.

(** ... a separator that is itself a list ... *)
Theorem C31_list_separator_refuted : exists g r x, conversion g r x = Some CPanic /\
  exists t u v a, lookup r g = Some (TDelim t (TDelim u v a false false) NonAssociative false false).
Proof.
  exists [("a", NonAssoc (TSeq [lit "a"; lit "b"]) (NonAssoc (TSeq [lit "c"; lit "d"]) (lit ",")))], "a", "abcdab".
  split; [vm_compute; reflexivity|]. do 4 eexists. reflexivity.
Qed.
Print Assumptions C31_list_separator_refuted.

(** ... a rule that is a named group ... *)
Theorem C31_named_rule_refuted : exists g r x, conversion g r x = Some CPanic /\
  exists n ts, lookup r g = Some (TNamed n (TSeq ts)).
Proof. exists [("a", TNamed "x" (TSeq [lit "1"; lit "2"]))], "a", "12". split; [vm_compute; reflexivity|]. do 2 eexists. reflexivity. Qed.
Print Assumptions C31_named_rule_refuted.

(** ... a stack that mentions @ and itself at one level. *)
Definition mixed : grammar := [("a", TStack [TSeq [TRule "@"; Opt (TSeq [lit "+"; TRule "a"])]; lit "1"])].
Theorem C31_mixed_levels_refuted : exists g r x, conversion g r x = Some CPanic /\
  exists layers, lookup r g = Some (TStack layers) /\ Exists (mentions "@") layers /\ Exists (mentions r) layers.
Proof.
  exists mixed, "a", "1+1". split; [vm_compute; reflexivity|]. eexists. split; [reflexivity|].
  split; apply Exists_cons_hd; constructor.
  - apply Exists_cons_hd. constructor.
  - apply Exists_cons_tl. apply Exists_cons_hd. constructor. constructor. apply Exists_cons_tl. apply Exists_cons_hd. constructor.
Qed.
Print Assumptions C31_mixed_levels_refuted.

(** C32: without scoped grammars the conversions leave the caller's grammar as it was. *)
Theorem C32_from_keeps_grammar : forall f g e b g', no_scoped_grammar g = true ->
  from_parser_node f g e = COk (b, g') -> g' = g.
Proof. exact from_parser_node_keeps. Qed.
Print Assumptions C32_from_keeps_grammar.

Theorem C32_to_keeps_grammar : forall f g b v g', no_scoped_grammar g = true ->
  to_parser_node f g b = COk (v, g') -> g' = g.
Proof. exact to_parser_node_keeps. Qed.
Print Assumptions C32_to_keeps_grammar.

Example C32_example :
  no_scoped_grammar listing = true /\
  match ast_of listing "a" "(x,yz)" with Some (COk (_, g')) => g' = listing | _ => False end /\
  match back_of listing "a" "(x,yz)" with Some (COk (_, g')) => g' = listing | _ => False end.
Proof. repeat split. Qed.

(** With a scoped grammar its rules end up in the caller's map; a rule of the same name is
    overwritten, which changes what the grammar describes. *)
Definition leaky : grammar :=
  [("a", TSeq [TRule "b"; TScoped (TSeq [TRule "b"; lit ";"]) [("b", lit "x")]]); ("b", TSeq [lit "y"; lit "z"])].
Theorem C32_scoped_refuted : exists g e b g',
  tree_of g "a" "yzx;" = Some e /\ from_parser_node 300 g e = COk (b, g') /\
  lookup "b" g = Some (TSeq [lit "y"; lit "z"]) /\ lookup "b" g' = Some (lit "x").
Proof. exists leaky. do 3 eexists. split; [vm_compute; reflexivity|]. split; [vm_compute; reflexivity|]. split; reflexivity. Qed.
Print Assumptions C32_scoped_refuted.

(** ... and the conversion of the next tree of that grammar panics, which a fresh grammar does not. *)
Theorem C32_second_conversion_refuted : exists g e b g',
  tree_of g "a" "yzx;" = Some e /\ from_parser_node 300 g e = COk (b, g') /\ from_parser_node 300 g' e = CPanic.
Proof. exists leaky. do 3 eexists. split; [vm_compute; reflexivity|].
  split; [vm_compute; reflexivity|]. vm_compute. reflexivity.
Qed.
Print Assumptions C32_second_conversion_refuted.

(** C33: the AST of a tree turns back into the tree, for grammars whose repetitions start with
    a name that nothing after them uses. *)
Theorem C33_trees : forall g, smooth_grammar g -> regained g -> forall r t v, lookup r g = Some t -> shaped g r t v ->
  (forall s, v <> Leaf s) -> forall n b g', from_parser_node n g v = COk (b, g') ->
  exists N, forall m, N <= m -> to_parser_node m g b = COk (otree_of v, g).
Proof. exact round_trip. Qed.
Print Assumptions C33_trees.

(** What the parser accepts converts, and turns back. *)
Theorem C33_parsed : forall c, cf_esc c = None -> forall g ps, compile (cf_eng c) g = COk ps ->
  readable (p_grammar ps) -> smooth_grammar (p_grammar ps) -> coherent (p_grammar ps) -> regained (p_grammar ps) ->
  forall r, r <> WrapRE -> forall f s v s', drawn_ok (cf_rnd c) (draws c f ps r s) -> result (parse_rule c f ps r s) v s' ->
  (forall x, v <> Leaf x) ->
  exists N, forall n, N <= n -> exists b g', from_parser_node n (p_grammar ps) v = COk (b, g') /\
  exists M, forall m, M <= m -> to_parser_node m (p_grammar ps) b = COk (otree_of v, p_grammar ps).
Proof. exact compiled_round_trip. Qed.
Print Assumptions C33_parsed.

(** Lists inside optional parts inside a repetition, a choice and a named token. *)
Definition entries : grammar :=
  [("a", TSeq [Any (TRule "b"); lit "."]);
   ("b", TSeq [TNamed "key" (TRule "w"); Opt (TRule "args"); TOneof [TRule "n"; TNamed "alt" (TSeq [lit "!"; TRule "n"])]; lit ";"]);
   ("args", TSeq [lit "("; NonAssoc (TRule "w") (TNamed "comma" (lit ",")); lit ")"]);
   ("n", TRE (bs "[0-9]+")); ("w", TRE (bs "[a-z]+"))].
Example C33_example :
  readable entries /\ smooth_grammar entries /\ coherent entries /\ regained entries /\ p_grammar (parsers_of entries) = entries /\
  match tree_of entries "a" "k1;f(x,yz)!22;g(z)3;." with
  | Some v => length (leaves v) = 19%nat /\ back_of entries "a" "k1;f(x,yz)!22;g(z)3;." = Some (COk (otree_of v, entries))
  | None => False
  end.
Proof.
  split; [split; reflexivity|]. split; [apply smooth_grammar_b_ok; reflexivity|]. split; [apply coherent_b_ok; reflexivity|].
  split; [apply regained_b_ok; reflexivity|]. split; [reflexivity|].
  vm_compute. split; reflexivity.
Qed.

(** Outside that class the way back goes wrong: a repeated literal eats the later ones, *)
Definition shared : grammar := [("a", TSeq [lit "("; Any (lit "x"); lit ")"])].
Theorem C33_shared_literal_lost : exists g r x, back_of g r x = Some (COk (ONil, g)).
Proof.
  exists shared, "a", "(x)". vm_compute. reflexivity.
Qed.
Print Assumptions C33_shared_literal_lost.
(** a tree that is a token panics, *)
Theorem C33_token_panics : exists g r x, back_of g r x = Some CPanic.
Proof.
  exists [("a", lit "x")], "a", "x". vm_compute. reflexivity.
Qed.
Print Assumptions C33_token_panics.
(** a reference under another name changes the tag, *)
Theorem C33_alias_retagged : exists g r x w,
  back_of g r x = Some (COk (w, g)) /\ tree_of g r x <> None /\ forall v, tree_of g r x = Some v -> w <> otree_of v.
Proof.
  exists [("a", TSeq [TNamed "n" (TRule "x")]); ("x", TSeq [lit "x"])], "a", "x". eexists.
  split; [vm_compute; reflexivity|]. split; [vm_compute; discriminate|]. intros v. vm_compute. intros E. inversion E; subst. discriminate.
Qed.
Print Assumptions C33_alias_retagged.
(** look-ahead nodes lose their wrapping, *)
Theorem C33_look_ahead_unwrapped : exists g r x w,
  back_of g r x = Some (COk (w, g)) /\ tree_of g r x <> None /\ forall v, tree_of g r x = Some v -> w <> otree_of v.
Proof.
  exists [("a", TSeq [TLookAhead (TRule "x"); TRule "x"]); ("x", lit "x")], "a", "x". eexists.
  split; [vm_compute; reflexivity|]. split; [vm_compute; discriminate|]. intros v. vm_compute. intros E. inversion E; subst. discriminate.
Qed.
Print Assumptions C33_look_ahead_unwrapped.
(** lists that may start with a separator panic, *)
Theorem C33_leading_separator_panics : exists g r x, back_of g r x = Some CPanic.
Proof.
  exists [("a", TDelim (TRule "x") (TRule "y") NonAssociative true false); ("x", lit "x"); ("y", lit ",")], "a", ",x,x".
  vm_compute. reflexivity.
Qed.
Print Assumptions C33_leading_separator_panics.
(** back references panic. *)
Theorem C33_back_reference_panics : exists g r x, back_of g r x = Some CPanic.
Proof.
  exists [("a", TSeq [TNamed "q" (TRule "x"); TREF "q" None]); ("x", TRE (bs "[a-z]"))], "a", "xx".
  vm_compute. reflexivity.
Qed.
Print Assumptions C33_back_reference_panics.

(** C34: the scanner of a node is the least range that covers the leaves that count. *)
Theorem C34_covering_range : forall o n, even o n ->
  exists s, node_scanner n = Some s /\
    (shown n = [] -> s = zero_scanner) /\
    (shown n <> [] -> least_cover (shown n) s /\ src s = Some o).
Proof. exact node_scanner_range. Qed.
Print Assumptions C34_covering_range.

(** It is the same in whatever order the entries of the branches are visited. *)
Theorem C34_any_order : forall o n n', even o n -> reshuffled n n' -> node_scanner n' = node_scanner n.
Proof. exact node_scanner_order. Qed.
Print Assumptions C34_any_order.

(** TestBranchScanner-like: two names, one leaf each side, one nested, and data under "@rule". *)
Definition spread : anode :=
  ABranch [("@rule", One (AExtra (DRule "a")));
           ("x", Many [ALeaf (slice (text "0123456789") 5 6); ABranch [("", One (ALeaf (slice (text "0123456789") 8 9)))]]);
           ("y", One (ABranch [("", One (ALeaf (slice (text "0123456789") 2 3))); ("z", One (ABranch []))]))].
Definition spread' : anode :=
  ABranch [("y", One (ABranch [("z", One (ABranch [])); ("", One (ALeaf (slice (text "0123456789") 2 3)))]));
           ("@rule", One (AExtra (DRule "a")));
           ("x", Many [ALeaf (slice (text "0123456789") 5 6); ABranch [("", One (ALeaf (slice (text "0123456789") 8 9)))]])].
Example C34_example :
  even (mkSource (bs "0123456789") "") spread /\ reshuffled spread spread' /\
  option_map sstring (node_scanner spread) = Some (Some (bs "2345678")) /\
  option_map sstring (node_scanner spread') = Some (Some (bs "2345678")).
Proof.
  split; [|split; [|split; reflexivity]].
  - constructor. intros k c [E|[E|[E|[]]]] N; inversion E; subst; try discriminate.
    + constructor; [|right; repeat constructor; discriminate].
      repeat constructor. intros k c [E'|[]] _. inversion E'; subst. repeat constructor.
    + constructor. constructor. intros k c [E'|[E'|[]]] _; inversion E'; subst; repeat constructor. intros k c [].
  - apply rs_branch with (b' := [("@rule", One (AExtra (DRule "a")));
      ("x", Many [ALeaf (slice (text "0123456789") 5 6); ABranch [("", One (ALeaf (slice (text "0123456789") 8 9)))]]);
      ("y", One (ABranch [("z", One (ABranch [])); ("", One (ALeaf (slice (text "0123456789") 2 3)))]))]).
    + constructor; [split; [reflexivity|constructor; apply reshuffled_refl]|].
      constructor; [split; [reflexivity|constructor; constructor; [apply reshuffled_refl|constructor; [apply reshuffled_refl|constructor]]]|].
      constructor; [|constructor]. split; [reflexivity|]. constructor.
      eapply rs_branch with (b' := [("", One (ALeaf (slice (text "0123456789") 2 3))); ("z", One (ABranch []))]);
        [|apply perm_swap].
      constructor; [|constructor; [|constructor]]; (split; [reflexivity|]); constructor; apply reshuffled_refl.
    + simpl. apply (Permutation_app_comm [_; _] [_]).
Qed.

(** Without "either every child has leaves or none has" it can panic: a -> b:","; b -> "x"? on "x,". *)
Definition gaps : grammar := [("a", NonAssoc (TRule "b") (lit ",")); ("b", Opt (lit "x"))].
Theorem C34_empty_child_refuted : exists g b g',
  ast_of g "a" "x," = Some (COk (b, g')) /\ node_scanner (ABranch b) = None /\
  Forall (fun l => src l = src (text "x,")) (shown (ABranch b)).
Proof.
  exists gaps. do 2 eexists. split; [vm_compute; reflexivity|]. split; [vm_compute; reflexivity|]. repeat constructor.
Qed.
Print Assumptions C34_empty_child_refuted.

(** C35: on ASTs whose names all have children, ContentEquals decides equality of content ... *)
Theorem C35_decides_content : forall a b, filled a -> filled b -> (content_equals a b = true <-> same_content a b).
Proof. exact content_equals_spec. Qed.
Print Assumptions C35_decides_content.

(** ... and is an equivalence. *)
Theorem C35_reflexive : forall a, filled a -> content_equals a a = true.
Proof. exact content_equals_refl. Qed.
Print Assumptions C35_reflexive.

Theorem C35_symmetric : forall a b, filled a -> filled b -> content_equals a b = content_equals b a.
Proof. exact content_equals_sym. Qed.
Print Assumptions C35_symmetric.

Theorem C35_transitive : forall a b c, filled a -> filled b -> filled c ->
  content_equals a b = true -> content_equals b c = true -> content_equals a c = true.
Proof. exact content_equals_trans. Qed.
Print Assumptions C35_transitive.

(** The same texts at other places of another source; a text that differs. *)
Definition at_one : anode :=
  ABranch [("@rule", One (AExtra (DRule "a"))); ("x", Many [ALeaf (slice (text "ab") 0 1); ALeaf (slice (text "ab") 1 2)])].
Definition at_two : anode :=
  ABranch [("x", Many [ALeaf (slice (text "-ab") 1 2); ALeaf (slice (text "-ab") 2 3)]); ("@rule", One (AExtra (DRule "a")))].
Definition at_three : anode :=
  ABranch [("x", Many [ALeaf (slice (text "-ab") 1 2); ALeaf (slice (text "-ab") 1 2)]); ("@rule", One (AExtra (DRule "a")))].
Example C35_example :
  filled at_one /\ filled at_two /\ filled at_three /\
  content_equals at_one at_two = true /\ content_equals at_one at_three = false.
Proof.
  split; [|split; [|split; [|split; reflexivity]]];
    (constructor; [repeat constructor; simpl; intuition discriminate|];
     repeat constructor; econstructor; reflexivity).
Qed.

(** With an empty list of children it is not symmetric. *)
Theorem C35_empty_many_not_symmetric : exists a b, content_equals a b = true /\ content_equals b a = false.
Proof.
  exists (ABranch [("a", Many [])]), (ABranch [("b", One (ALeaf (text "x")))]). split; reflexivity.
Qed.
Print Assumptions C35_empty_many_not_symmetric.
