(** Property C42: unparsing. *)
From Verif Require Import Base Scanner ScannerSpec Syntax Engine Resolve Compile Parse Regex RegexProofs PegSpec DerivSpec FlowSpec CutSpec ApiSpec ApiProofs
  Demo Ast AstProofs Unparse UnparseSpec UnparseProofs.

(** C42: for grammars in the class, unparsing what rule [r] parsed writes exactly the consumed text and reports its length;
    the grammar is the one the parsers were compiled to, so the text of the grammar may have stacks. *)
Theorem C42_unparse_inverts : forall c, cf_esc c = None -> forall g ps, compile (cf_eng c) g = COk ps -> readable (p_grammar ps) ->
  writable_grammar (p_grammar ps) = true -> forall f r s ex cs s', engine_ok (cf_eng c) -> in_range s ->
  no_groups_grammar (cf_eng c) (p_grammar ps) -> no_look_grammar (p_grammar ps) = true ->
  drawn_ok (cf_rnd c) (draws c f ps r s) -> result (parse_rule c f ps r s) (Node r ex cs) s' ->
  exists txt rest f0, shows s (txt ++ rest) /\ shows s' rest /\
    forall f', f0 <= f' -> grammar_unparse f' (p_grammar ps) (Node r ex cs) = COk (txt, length txt).
Proof. exact result_unparses. Qed.
Print Assumptions C42_unparse_inverts.
(** The tree has the name of the rule if the rule is a sequence, choice, repetition or list. *)
Theorem C42_named_trees : forall c, cf_esc c = None -> forall g ps, compile (cf_eng c) g = COk ps -> readable (p_grammar ps) ->
  forall f r t s v s', lookup r (p_grammar ps) = Some t -> composite t = true -> r <> ""%string ->
  drawn_ok (cf_rnd c) (draws c f ps r s) -> result (parse_rule c f ps r s) v s' -> exists ex cs, v = Node r ex cs.
Proof.
  intros c NE g ps C RD f r t s v s' L K N D R. eapply rule_tag; eauto.
  eapply (result_derives c NE (p_grammar ps) ps); eauto. eapply recompile; [exact C|exact (proj1 RD)].
Qed.
Print Assumptions C42_named_trees.
(** With groups, .wrapRE and look-aheads it writes the texts of the leaves, whether or not they are the consumed text. *)
Theorem C42_writes_leaves : forall c, cf_esc c = None -> forall g ps, compile (cf_eng c) g = COk ps -> readable (p_grammar ps) ->
  writable_grammar (p_grammar ps) = true -> forall f r s tag ex cs s' txts, drawn_ok (cf_rnd c) (draws c f ps r s) ->
  result (parse_rule c f ps r s) (Node tag ex cs) s' -> tag = r -> Forall2 shows (leaves (Node tag ex cs)) txts ->
  exists f0, forall f', f0 <= f' -> grammar_unparse f' (p_grammar ps) (Node tag ex cs) = COk (concat txts, length (concat txts)).
Proof. exact result_writes. Qed.
Print Assumptions C42_writes_leaves.

Definition calc : grammar :=
  [("e", TStack [TDelim (TRule "@") (TNamed "op" (TS (bs "+"))) NonAssociative false false;
                 TSeq [TRule "n"; TQuant (TOneof [TS (bs "!"); TSeq [TS (bs "["); TRule "e"; TS (bs "]")]]) 0 0];
                 TOneof [TRE (bs "\d+"); TSeq [TS (bs "("); TRule "@"; TS (bs ")")]]]);
   ("n", TOneof [TRule "e@2"; TCut (TS (bs "-"))])]%string.
Definition calc_chain : grammar := Eval vm_compute in p_grammar (parsers_of calc).
Lemma calc_no_groups : no_groups_grammar regex_engine (p_grammar (parsers_of calc)).
Proof.
  replace (p_grammar (parsers_of calc)) with calc_chain by (vm_compute; reflexivity). split; [reflexivity|].
  assert (F : Forall (fun kv : string * term => no_groups regex_engine (snd kv)) calc_chain).
  { unfold calc_chain. repeat apply Forall_cons; try apply Forall_nil; cbn [snd no_groups]; repeat split; vm_compute; reflexivity. }
  intros r t L. rewrite Forall_forall in F. exact (F _ (lookup_In _ _ _ L)).
Qed.
Definition calc_result (x : string) : option (written * bytes) :=
  match parse_rule call 90 (parsers_of calc) "e" (text x) with
  | (ROk v, s') | (RErr (EUnconsumed s' v), _) =>
      match grammar_unparse 90 (p_grammar (parsers_of calc)) v, sstring s' with COk w, Some rest => Some (w, rest) | _, _ => None end
  | _ => None
  end.
Example C42_example : compile regex_engine calc = COk (parsers_of calc) /\ readable (p_grammar (parsers_of calc)) /\
  writable_grammar (p_grammar (parsers_of calc)) = true /\ no_groups_grammar regex_engine (p_grammar (parsers_of calc)) /\
  no_look_grammar (p_grammar (parsers_of calc)) = true /\ option_map composite (lookup "e"%string (p_grammar (parsers_of calc))) = Some true /\
  calc_result "1+2![3+(4)]!+-x" = Some ((bs "1+2![3+(4)]!+-", 14), bs "x").
Proof.
  split; [vm_compute; reflexivity|]. split; [split; vm_compute; reflexivity|]. split; [vm_compute; reflexivity|]. split; [exact calc_no_groups|].
  split; [vm_compute; reflexivity|]. split; vm_compute; reflexivity.
Qed.

(** Outside the class.  An associative list of at least two items is never written (its first item, or last for lists nested
    to the right, is taken for a list), unless that item is itself a list ... *)
Theorem C42_left_lists : forall g t sep a cs ce tag l v, nest_left tag l v -> (forall x, hd_error l = Some x -> unlisted x) ->
  forall f o, unparse f g (TDelim t sep a cs ce) v <> COk o.
Proof. exact left_unwritten. Qed.
Print Assumptions C42_left_lists.
Theorem C42_right_lists : forall g t sep a cs ce tag l v, nest_right tag l v -> (forall x, last_error l = Some x -> unlisted x) ->
  forall f o, unparse f g (TDelim t sep a cs ce) v <> COk o.
Proof. exact right_unwritten. Qed.
Print Assumptions C42_right_lists.
(** ... and a list with a leading or trailing separator never is. *)
Theorem C42_optional_separators : forall f g t sep a cs ce tag ex l o, In Empty l -> unparse f g (TDelim t sep a cs ce) (Node tag ex l) <> COk o.
Proof. exact optional_unwritten. Qed.
Print Assumptions C42_optional_separators.

(** Expected is that what was parsed can be unparsed.  Instead unparsing panics after a successful parse ... *)
Definition unparse_fails (g : grammar) (x : string) : Prop :=
  exists v s', compile regex_engine g = COk (parsers_of g) /\ parse_rule call 90 (parsers_of g) "a" (text x) = (ROk v, s') /\
    forall f, 9 <= f -> grammar_unparse f (p_grammar (parsers_of g)) v = CPanic.
(** ... or writes something else. *)
Definition unparse_differs (g : grammar) (x y : string) : Prop :=
  exists v s', compile regex_engine g = COk (parsers_of g) /\ parse_rule call 90 (parsers_of g) "a" (text x) = (ROk v, s') /\
    (forall f, 9 <= f -> grammar_unparse f (p_grammar (parsers_of g)) v = COk (bs y, length (bs y))) /\ x <> y.
Definition unparsed (g : grammar) (x : string) : option (cres written) :=
  match compile regex_engine g, parse_rule call 90 (parsers_of g) "a" (text x) with
  | COk _, (ROk v, _) => Some (grammar_unparse 9 (p_grammar (parsers_of g)) v)
  | _, _ => None
  end.
Lemma unparsed_compiles : forall g x r, unparsed g x = Some r -> compile regex_engine g = COk (parsers_of g).
Proof. intros g x r H. unfold unparsed, parsers_of in *. destruct (compile regex_engine g); congruence. Qed.
Lemma fails_b : forall g x, unparsed g x = Some CPanic -> unparse_fails g x.
Proof.
  intros g x H. assert (C := unparsed_compiles _ _ _ H). unfold unparsed in H. rewrite C in H.
  destruct (parse_rule call 90 (parsers_of g) "a" (text x)) as [[v| | |] s'] eqn:P; try discriminate. injection H as H.
  exists v, s'. split; [exact C|]. split; [exact P|]. exact (grammar_panics 9 _ _ H).
Qed.
Lemma differs_b : forall g x y, unparsed g x = Some (COk (bs y, length (bs y))) -> x <> y -> unparse_differs g x y.
Proof.
  intros g x y H N. assert (C := unparsed_compiles _ _ _ H). unfold unparsed in H. rewrite C in H.
  destruct (parse_rule call 90 (parsers_of g) "a" (text x)) as [[v| | |] s'] eqn:P; try discriminate. injection H as H.
  exists v, s'. split; [exact C|]. split; [exact P|]. split; [exact (grammar_writes_mono 9 _ _ _ H)|exact N].
Qed.
Ltac fails := apply fails_b; vm_compute; reflexivity.
Ltac differs := apply differs_b; [vm_compute; reflexivity|discriminate].
Definition list_of (a : assoc) (cs ce : bool) : grammar := [("a"%string, TDelim (TRE (bs "\d")) (TS (bs ",")) a cs ce)].
Theorem C42_left_list_refuted : unparse_fails (list_of LeftToRight false false) "1,2".
Proof. fails. Qed.
Theorem C42_right_list_refuted : unparse_fails (list_of RightToLeft false false) "1,2".
Proof. fails. Qed.
Theorem C42_leading_refuted : unparse_fails (list_of NonAssociative true false) ",1".
Proof. fails. Qed.
Theorem C42_trailing_refuted : unparse_fails (list_of NonAssociative false true) "1,".
Proof. fails. Qed.
(** A rule that is a literal or pattern, or one with a name of its own. *)
Theorem C42_token_refuted : unparse_fails [("a", TS (bs "x"))]%string "x".
Proof. fails. Qed.
Theorem C42_name_refuted : unparse_fails [("a", TNamed "n" (TSeq [TS (bs "x")]))]%string "x".
Proof. fails. Qed.
Theorem C42_nested_refuted : unparse_fails [("a", TSeq [TScoped (TRule "b") [("b", TS (bs "x"))]])]%string "x".
Proof. fails. Qed.
(** Look-aheads are written twice, references with a backslash; what a group leaves out is lost. *)
Theorem C42_lookahead_refuted : unparse_differs [("a", TSeq [TLookAhead (TS (bs "x")); TS (bs "x")])]%string "x" "xx".
Proof. differs. Qed.
Theorem C42_reference_refuted : unparse_differs [("a", TSeq [TNamed "n" (TRE (bs "\w")); TREF "n" None])]%string "xx" "x\x".
Proof. differs. Qed.
Theorem C42_wrap_refuted : unparse_differs [("a", TSeq [TS (bs "x"); TS (bs "y")]); (".wrapRE", TRE (bs "\s*()\s*"))]%string "x y " "xy".
Proof. differs. Qed.
Print Assumptions C42_left_list_refuted.
Print Assumptions C42_wrap_refuted.
