(** Properties C77 and C78: what is read when a printed grammar is read, and productions without semicolon. *)
From Coq Require Import Permutation.
From Verif Require Import Base Scanner Syntax Engine Resolve Compile Parse Regex PegSpec PegProofs Demo WbnfGrammar Ast WbnfAst Walker StrLit StrLitSpec Build CutPoints CutPointProofs NumSpec TextSpec
  RefsSpec Validate Front FrontFuel FrontDemo TextCheck CutSpec CodegenProofs DrawProofs LayoutSpec LayoutTop TermString PrintSpec PrintProofs Prop_Layout.
Local Open Scope string_scope.
Local Open Scope list_scope.

(** C77: what [Grammar.String] prints for a plain grammar is read as this grammar, up to the order of its rules: the text loads, to an AST that says these rules. *)
Theorem C77_read_back : forall quote E wbnf g, finds_tokens E -> compile E wbnf_grammar = COk wbnf -> plain_grammar quote g ->
  let x := grammar_string quote g in
  exists n prods, reads_grammar n prods /\ Permutation (grammar_text prods) g /\
  (forall w depth fuel r, w_engine w = E -> drawn_ok (w_rnd w) (draws (text_config w) fuel wbnf "grammar" (text_scanner "" x)) ->
     load_text w wbnf depth fuel x = COk r -> r = inr n) /\
  exists N k, forall w depth fuel, w_engine w = E -> drawn_ok (w_rnd w) k -> unreserved (w_rnd w) k -> N <= fuel -> load_text w wbnf depth fuel x = COk (inr n).
Proof.
  intros quote E wbnf g S C P x. destruct (grammar_printed quote g P) as (ss & T & PG). destruct (text_loaded E wbnf ss _ S C T) as (n & R & _ & H). exists n, (rules_of ss). auto.
Qed.
Print Assumptions C77_read_back.
(** A grammar that is built from it is the one printed, with its cut points. *)
Theorem C77_built : forall quote w wbnf g depth fuel g', finds_tokens (w_engine w) -> compile (w_engine w) wbnf_grammar = COk wbnf -> plain_grammar quote g ->
  drawn_ok (w_rnd w) (draws (text_config w) fuel wbnf "grammar" (text_scanner "" (grammar_string quote g))) ->
  build_text w wbnf depth fuel (grammar_string quote g) = COk (inr g') -> Permutation g' (insert_cut_points g).
Proof.
  intros quote w wbnf g depth fuel g' S C P D B. destruct (grammar_printed quote g P) as (ss & T & PG). rewrite (text_built w wbnf ss _ depth fuel g' S C T D B).
  apply CutPointProofs.insert_perm. exact PG.
Qed.
Print Assumptions C77_built.
(** Plain grammars that print the same are the same. *)
Theorem C77_faithful : forall quote g1 g2, plain_grammar quote g1 -> plain_grammar quote g2 -> grammar_string quote g1 = grammar_string quote g2 -> Permutation g1 g2.
Proof.
  intros quote g1 g2 P1 P2 E. destruct (grammar_printed quote g1 P1) as (ss1 & T1 & G1). destruct (grammar_printed quote g2 P2) as (ss2 & T2 & G2). rewrite E in T1.
  rewrite (C75_unambiguous _ _ _ T1 T2) in G1. eapply Permutation_trans; [apply Permutation_sym|]; eauto.
Qed.
Print Assumptions C77_faithful.
(** Quoted by the rules of strconv.Quote, a string of printable ASCII characters and of control characters that have a letter is a string of the grammar language,
    which means it. *)
Theorem C77_quoted_strings : forall s, forallb tidy_char s = true -> undone ascii_quote s.
Proof. exact quoted_string. Qed.
Print Assumptions C77_quoted_strings.
(** Other control characters are quoted with "\x", which the grammar language cannot read. *)
Theorem C77_control_characters_refuted : exists s, parse_string (written_raw s) = Some s /\ string_token (ascii_quote s) /\ parse_string (ascii_quote s) = None.
Proof.
  exists [ascii_of_nat 1]. split; [reflexivity|]. split; [|reflexivity]. left. exists """"%char, (bs "\x01"). split; [cbn; auto|]. split; [reflexivity|].
  apply qu_pair; [discriminate|]. repeat (apply qu_plain; [discriminate|discriminate|]). constructor.
Qed.
Print Assumptions C77_control_characters_refuted.

(** One plain rule is printed without a semicolon, so it is never read. *)
Theorem C77_single_rule_unread : forall quote w wbnf k t depth fuel r, finds_tokens (w_engine w) -> compile (w_engine w) wbnf_grammar = COk wbnf ->
  a_name k -> plain quote 0 t -> let x := grammar_string quote [(k, t)] in
  drawn_ok (w_rnd w) (draws (text_config w) fuel wbnf "grammar" (text_scanner "" x)) ->
  load_text w wbnf depth fuel x = COk r -> r = inl BadSyntax.
Proof.
  intros quote w wbnf k t depth fuel r S C N P x D H. apply (unfinished_unread w wbnf [] x depth fuel r S C); auto. exact (single_unfinished quote k t N P).
Qed.
Print Assumptions C77_single_rule_unread.

(** The AST and the grammar of a text, printed and read again. *)
Definition reread (x : string) : option (grammar * string * cres (front_error + grammar)) :=
  match front_grammar 300 x with
  | COk (inr g) => let y := grammar_string ascii_quote g in Some (g, sb y, build_text (desk []) wbnf_front 9 400 y)
  | _ => None
  end.
(** Grammars that are built from texts and cannot be read back when printed: single rules, cut points, regular expressions, references without default, bounds of one. *)
Theorem C77_unreadable_refuted : forall x y,
  In (x, y) [("a -> ""x"" ""x"";", "a -> (""x"" ""x"")");
             ("a -> b ""x""; b -> ""y""?;", "a -> (b cutpoint {""x""}); b -> cutpoint {""y""}?;");
             ("a -> b ""x""; b -> ""x"" /{y};", "a -> (b ""x""); b -> (""x"" /y/);");
             ("a -> x=b %x; b -> ""x"" ""x"";", "a -> (x=b %x=<nil>); b -> (""x"" ""x"");");
             ("a -> b{1,1}; b -> ""x"" ""x"";", "a -> %!v(PANIC=String method: How did this happen!?); b -> (""x"" ""x"");")] ->
  exists g, reread x = Some (g, y, COk (inl BadSyntax)).
Proof. intros x y I. repeat (destruct I as [I|I]; [injection I as <- <-; eexists; vm_compute; reflexivity|]). destruct I. Qed.
Print Assumptions C77_unreadable_refuted.
(** Grammars that are read back as others: choices lose their parentheses, repetitions of repetitions change places, externals become rules. *)
Theorem C77_misread_refuted : forall x y,
  In (x, y) [("a -> (""x""|""y"") ""z"" b; b -> ""x"" ""y"" ""z"";", "a -> (""x"" | ""y"" ""z"" b); b -> (""x"" ""y"" ""z"");");
             ("a -> x=(""x""|""y"") b; b -> ""x"" ""y"";", "a -> (x=""x"" | ""y"" b); b -> (""x"" ""y"");");
             ("a -> (b?)+; b -> ""x"" ""x"";", "a -> b?+; b -> (""x"" ""x"");");
             ("a -> b %%b; b -> ""x"" ""x"";", "a -> (b b); b -> (""x"" ""x"");")] ->
  exists g g', reread x = Some (g, y, COk (inr g')) /\ ~ Permutation g g'.
Proof.
  intros x y I.
  repeat (destruct I as [I|I]; [injection I as <- <-; eexists; eexists; split; [vm_compute; reflexivity|];
    intros P; pose proof (Permutation_in _ P (or_introl eq_refl)) as Q; cbn in Q; intuition discriminate|]).
  destruct I.
Qed.
Print Assumptions C77_misread_refuted.
(** Different grammars that print the same. *)
Theorem C77_faithful_refuted : exists x1 x2 g1 g2 y r1 r2, reread x1 = Some (g1, y, r1) /\ reread x2 = Some (g2, y, r2) /\ ~ Permutation g1 g2.
Proof.
  exists "a -> x=(b|c); b -> ""x"" ""x""; c -> ""y"" ""y"";", "a -> x=b | c; b -> ""x"" ""x""; c -> ""y"" ""y"";". do 5 eexists. split; [vm_compute; reflexivity|]. split; [vm_compute; reflexivity|].
  intros P. pose proof (Permutation_in _ P (or_introl eq_refl)) as Q. cbn in Q. intuition discriminate.
Qed.
Print Assumptions C77_faithful_refuted.

(** Rules of all shapes that are plain. *)
Definition plain_rules : grammar :=
  [("b", TSeq [TREF "x" (Some (bs "q")); TS (bs """\" ++ [nl]); TQuant (TRule "c") 2 0]);
   ("a", TStack [TOneof [TSeq [TNamed "x" (TRule "b"); TQuant (TSeq [TRule "b"; TRule "c"]) 0 1; TDelim (TRule "d") (TS (bs "+")) LeftToRight true false];
                         TLookAhead (TStack [TRule "c"; TOneof [TRule "d"; TS (bs "+")]])]; TQuant (TRule ".d") 1 0]);
   (".d", TSeq []); ("c", TQuant (TNamed "y" (TRule "b")) 0 3); ("d", TDelim (TRule "c") (TNamed "z" (TRule "b")) RightToLeft false true)].
Definition plain_text : bytes :=
  bs ".d -> (); a -> (x=b (b c)? d:>,""+"") | (?=c > d | ""+"") > .d+; b -> (%x=""q"" ""\""\\\n"" c{2,}); c -> y=b{,3}; d -> c<:z=b,;".
Lemma plain_up : forall quote n m t, plain quote m t -> n <= m -> m <= 4 -> plain quote n t.
Proof. intros quote n m t P L. revert P. induction L as [|m L IH]; intros P M; auto. apply IH; [apply pl_next; auto|]; lia. Qed.
Ltac aname := first [nam | right; exists (bs "."); eexists; eexists; split; [reflexivity|split; [auto|split; reflexivity]]].
Ltac plainly :=
  lazymatch goal with
  | |- plain _ _ (TStack _) => apply (plain_up _ _ 0); [apply pl_stack; repeat (apply Forall_cons; [plainly|]); apply Forall_nil|lia|lia]
  | |- plain _ _ (TOneof _) => apply (plain_up _ _ 1); [apply pl_choice; repeat (apply Forall_cons; [plainly|]); apply Forall_nil|lia|lia]
  | |- plain _ _ (TQuant _ _ _) => apply (plain_up _ _ 2); [apply pl_quant; [plainly|split; [unfold is_int; lia|split; [unfold is_int; lia|intros; lia]]]|lia|lia]
  | |- plain _ _ (TDelim _ _ _ _ _) => apply (plain_up _ _ 2); [apply pl_list; plainly|lia|lia]
  | |- plain _ _ (TNamed _ _) => apply (plain_up _ _ 3); [apply pl_named; [aname|plainly]|lia|lia]
  | |- plain _ _ (TRule _) => apply (plain_up _ _ 4); [apply pl_rule; aname|lia|lia]
  | |- plain _ _ (TS _) => apply (plain_up _ _ 4); [apply pl_string; apply C77_quoted_strings; reflexivity|lia|lia]
  | |- plain _ _ (TREF _ _) => apply (plain_up _ _ 4); [apply pl_ref; [aname|apply C77_quoted_strings; reflexivity]|lia|lia]
  | |- plain _ _ (TSeq []) => apply (plain_up _ _ 4); [apply pl_none|lia|lia]
  | |- plain _ _ (TSeq _) => apply (plain_up _ _ 4); [apply pl_seq; repeat (apply Forall_cons; [plainly|]); apply Forall_nil|lia|lia]
  | |- plain _ _ (TLookAhead _) => apply (plain_up _ _ 4); [apply pl_look; plainly|lia|lia]
  end.
Example C77_example : plain_grammar ascii_quote plain_rules /\ grammar_string ascii_quote plain_rules = plain_text /\
  finds_tokens (w_engine (desk [])) /\ compile (w_engine (desk [])) wbnf_grammar = COk wbnf_front /\
  (exists n, load_text (desk []) wbnf_front 1 700 plain_text = COk (inr n)) /\
  (exists g', build_text (desk []) wbnf_front 9 900 plain_text = COk (inr g') /\ Forall2 (fun kv kv' => kv = kv') (sorted (insert_cut_points plain_rules)) g') /\
  (a_name "a" /\ plain ascii_quote 0 (TSeq [TRule "b"; TRule "c"]) /\ load_text (desk []) wbnf_front 1 300 (bs "a -> (b c)") = COk (inl BadSyntax)).
Proof.
  split; [split; [cbn; lia|split]|].
  - cbn. repeat constructor; cbn; intuition discriminate.
  - unfold plain_rules. repeat (apply Forall_cons; [cbn [fst snd]; split; [aname|plainly]|]). apply Forall_nil.
  - split; [vm_compute; reflexivity|]. split; [intros x t _; reflexivity|]. split; [vm_compute; reflexivity|]. split; [eexists; vm_compute; reflexivity|].
    split; [eexists; split; [vm_compute; reflexivity|vm_compute; repeat constructor]|].
    split; [aname|]. split; [plainly|vm_compute; reflexivity].
Qed.

(** C78: a production ends with a semicolon, also the last: a text that leaves it out is not read, whatever stands before. *)
Theorem C78_last_semicolon : forall w wbnf w0 x depth fuel r, finds_tokens (w_engine w) -> compile (w_engine w) wbnf_grammar = COk wbnf ->
  forallb white w0 = true -> unfinished x ->
  drawn_ok (w_rnd w) (draws (text_config w) fuel wbnf "grammar" (text_scanner "" (w0 ++ x))) ->
  load_text w wbnf depth fuel (w0 ++ x) = COk r -> r = inl BadSyntax.
Proof. exact unfinished_unread. Qed.
Print Assumptions C78_last_semicolon.
(** With the semicolon it is a text. *)
Theorem C78_semicolon_added : forall x, unfinished x -> exists ss, text_of ss (x ++ bs ";").
Proof. exact unfinished_text. Qed.
Print Assumptions C78_semicolon_added.
Definition two_rules : bytes := bs "// two rules" ++ nl :: bs " a -> 'x' ; b->a ".
Definition first_line : list (token * bytes) := [(Name (bs "a"), bs " "); (Sign "->", bs " "); (Text (bs "'x'"), bs " "); (Sign ";", bs " ")].
Definition last_line : list (token * bytes) := [(Name (bs "b"), []); (Sign "->", []); (Name (bs "a"), bs " ")].
Example C78_example : unfinished two_rules /\ load_text (desk []) wbnf_front 1 300 two_rules = COk (inl BadSyntax) /\
  exists g, build_text (desk []) wbnf_front 9 300 (two_rules ++ bs ";") = COk (inr g).
Proof.
  split; [|split; [vm_compute; reflexivity|eexists; vm_compute; reflexivity]].
  apply (uf_note (bs " two rules") (bs " ") (bs "a -> 'x' ; b->a ")); [cbn; intuition discriminate| |reflexivity].
  eapply (uf_rule (bs "a") _ [Text (bs "'x'")] _ (bs "b->a ")); [nam| | |exact (lay_ok first_line (bs "b->a ") eq_refl)].
  - apply (w_stack [CSeq [CSeq [CLeaf "" (CLit (bs "x")) []]]]). apply wl_one. apply (w_choice [CSeq [CLeaf "" (CLit (bs "x")) []]]). apply wl_one. apply w_seq, wi_one.
    apply (w_item "" _ _ [Text (bs "'x'")] []); [|constructor]. apply wn_bare. apply wa_lit; [quo|reflexivity].
  - eapply (uf_last (bs "b") _ [Name (bs "a")]); [nam| |exact (lay_ok last_line [] eq_refl)].
    apply (w_stack [CSeq [CSeq [CLeaf "" (CRule "a") []]]]). apply wl_one. apply (w_choice [CSeq [CLeaf "" (CRule "a") []]]). apply wl_one. apply w_seq, wi_one.
    apply (w_item "" _ _ [Name (bs "a")] []); [|constructor]. apply wn_bare. apply (wa_rule (bs "a")). nam.
Qed.
