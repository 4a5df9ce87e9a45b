(** Property C75: grammars may be laid out freely; the grammar built is the one that was written. *)
From Verif Require Import Base Scanner Syntax Engine Resolve Compile Parse Regex PegSpec PegProofs Demo WbnfGrammar Ast WbnfAst Walker StrLit Build CutPoints NumSpec TextSpec
  RefsSpec Validate Front FrontFuel FrontDemo TextCheck CutSpec DrawProofs LayoutSpec LayoutTop ReadsOnce.
Local Open Scope string_scope.
Local Open Scope list_scope.

(** C75: a text that writes rules and comments is read, whatever its layout: its AST says these rules, and so does every AST that is returned. *)
Theorem C75_any_layout : forall E wbnf ss x, finds_tokens E -> compile E wbnf_grammar = COk wbnf -> text_of ss x ->
  exists n, reads_grammar n (rules_of ss) /\ plain_tree n /\
  (forall w depth fuel r, w_engine w = E -> drawn_ok (w_rnd w) (draws (text_config w) fuel wbnf "grammar" (text_scanner "" x)) ->
     load_text w wbnf depth fuel x = COk r -> r = inr n) /\
  exists N k, forall w depth fuel, w_engine w = E -> drawn_ok (w_rnd w) k -> unreserved (w_rnd w) k -> N <= fuel -> load_text w wbnf depth fuel x = COk (inr n).
Proof. exact text_loaded. Qed.
Print Assumptions C75_any_layout.
(** So a grammar that is built from it is the one written, with its cut points. *)
Theorem C75_built : forall w wbnf ss x depth fuel g, finds_tokens (w_engine w) -> compile (w_engine w) wbnf_grammar = COk wbnf -> text_of ss x ->
  drawn_ok (w_rnd w) (draws (text_config w) fuel wbnf "grammar" (text_scanner "" x)) ->
  build_text w wbnf depth fuel x = COk (inr g) -> g = insert_cut_points (grammar_text (rules_of ss)).
Proof. exact text_built. Qed.
Print Assumptions C75_built.
(** White space and comments do not matter: texts that write the same rules are the same grammar, also in other runs. *)
Theorem C75_same : forall w wbnf ss x depth fuel g w' ss' x' depth' fuel' g', finds_tokens (w_engine w) -> compile (w_engine w) wbnf_grammar = COk wbnf ->
  w_engine w' = w_engine w -> text_of ss x -> text_of ss' x' -> rules_of ss = rules_of ss' ->
  drawn_ok (w_rnd w) (draws (text_config w) fuel wbnf "grammar" (text_scanner "" x)) ->
  drawn_ok (w_rnd w') (draws (text_config w') fuel' wbnf "grammar" (text_scanner "" x')) ->
  build_text w wbnf depth fuel x = COk (inr g) -> build_text w' wbnf depth' fuel' x' = COk (inr g') -> g = g'.
Proof.
  intros w wbnf ss x depth fuel g w' ss' x' depth' fuel' g' S C E T T' R D D' B B'. rewrite (text_built _ _ _ _ _ _ _ S C T D B).
  rewrite <- E in S, C. rewrite (text_built _ _ _ _ _ _ _ S C T' D' B'), R. reflexivity.
Qed.
Print Assumptions C75_same.

(** Tokens with the white space after them. *)
Fixpoint lay (l : list (token * bytes)) (y : bytes) : bytes := match l with [] => y | (k, w) :: l => spelling k ++ w ++ lay l y end.
Fixpoint lay_b (l : list (token * bytes)) (y : bytes) : bool :=
  match l with
  | [] => true
  | (k, w) :: l => forallb white w && match w, lay l y with [], c :: _ => negb (glued k c) | _, _ => true end && lay_b l y
  end.
Lemma lay_ok : forall l y, lay_b l y = true -> lays (map fst l) y (lay l y).
Proof.
  induction l as [|[k w] l IH]; intros y H; cbn [lay_b lay map fst] in *; [constructor|]. apply andb_true_iff in H as [H H2]. apply andb_true_iff in H as [H0 H1].
  constructor; auto. intros -> c z E. rewrite E in H1. apply negb_true_iff in H1. auto.
Qed.

Definition end_note : bytes := bs "// the end".
Definition item_line : list (token * bytes) :=
  [(Name (bs "item"), bs "  "); (Sign "->", []); (Regexp (bs "[0-9]+"), bs " "); (Sign "|", [nl; " "%char]); (Text (bs "'('"), []); (Name (bs "list"), bs " ");
   (Text (bs "')'"), []); (Sign ";", bs " ")].
Definition list_line : list (token * bytes) :=
  [(Name (bs "list"), []); (Sign "->", []); (Name (bs "item"), []); (Sign ":", []); (Sign ",", []); (Text (bs """,,"""), bs " "); (Sign ";", [])].
Definition list_text : bytes :=
  [nl; " "%char] ++ (bs "//" ++ bs " a list; ""items") ++ [nl] ++ lay list_line (lay item_line end_note).
Definition ref_item (x : string) : ctext := CSeq [CLeaf "" (CRule x) []].
Definition list_rules : list statement :=
  [Note (bs "// a list; ""items");
   Rule "list" (CSeq [CSeq [CSeq [CLeaf "" (CRule "item") [QList NonAssociative "" (CLit (bs ",,")) true false]]]]);
   Rule "item" (CSeq [CChoice [CSeq [CLeaf "" (CRe (bs "[0-9]+")) []];
                               CSeq [CLeaf "" (CLit (bs "(")) []; CLeaf "" (CRule "list") []; CLeaf "" (CLit (bs ")")) []]]]);
   Note end_note].
Definition list_grammar : grammar :=
  [("list", TDelim (TRule "item") (TS (bs ",,")) NonAssociative true false);
   ("item", TOneof [TRE (bs "[0-9]+"); TSeq [TS (bs "("); TRule "list"; TS (bs ")")]])].
Ltac nam := right; exists []; eexists; eexists; split; [reflexivity|split; [auto|split; reflexivity]].
Ltac quo := left; match goal with |- exists q b, _ /\ ?t = _ /\ _ => let b := eval cbv in (removelast (tl t)) in let q := eval cbv in (hd " "%char t) in exists q, b end;
  split; [cbn; tauto|split; [reflexivity|]]; repeat first [apply qu_end|apply qu_plain; [discriminate|discriminate|]].
Example C75_written : text_of list_rules list_text.
Proof.
  split; [discriminate|]. exists [nl; " "%char]. eexists. split; [reflexivity|split; [reflexivity|]].
  apply (wt_note (bs " a list; ""items") _ [nl] (lay list_line (lay item_line end_note))); [cbn; intuition discriminate| |reflexivity|right; exists []; reflexivity].
  eapply (wt_rule (bs "list") _ [Name (bs "item"); Sign ":"; Sign ","; Text (bs """,,""")] _ _ (lay item_line end_note));
    [nam| | |exact (lay_ok list_line (lay item_line end_note) eq_refl)].
  { apply (w_stack [CSeq [CSeq [CLeaf "" (CRule "item") [QList NonAssociative "" (CLit (bs ",,")) true false]]]]). apply wl_one.
    apply (w_choice [CSeq [CLeaf "" (CRule "item") [QList NonAssociative "" (CLit (bs ",,")) true false]]]). apply wl_one. apply w_seq. apply wi_one.
    eapply (w_item "" _ _ [Name (bs "item")]); [apply wn_bare; apply (wa_rule (bs "item")); nam|].
    apply (wq_next _ _ [Sign ":"; Sign ","; Text (bs """,,""")] []); [|constructor].
    apply (wq_list ":" NonAssociative "" (CLit (bs ",,")) true false [Text (bs """,,""")]); [constructor|]. apply wn_bare. apply wa_lit; [quo|reflexivity]. }
  eapply (wt_rule (bs "item") _ [Regexp (bs "[0-9]+"); Sign "|"; Text (bs "'('"); Name (bs "list"); Text (bs "')'")] _ _ end_note);
    [nam| | |exact (lay_ok item_line end_note eq_refl)].
  { apply (w_stack [leveled CChoice [CSeq _; CSeq _]]). apply wl_one. apply w_choice.
    apply (wl_more "|" 2 _ _ [Regexp (bs "[0-9]+")] [Text (bs "'('"); Name (bs "list"); Text (bs "')'")]).
    - apply w_seq, wi_one. apply (w_item "" _ _ [Regexp (bs "[0-9]+")] []); [|constructor]. apply wn_bare. apply wa_re; [|reflexivity].
      right. apply (ub_one (bs "[0-9]") (bs "+")); [|right; eexists; split; [reflexivity|cbn; tauto]].
      left. exists (bs "0-9"). split; [reflexivity|split; [discriminate|reflexivity]].
    - apply wl_one. apply w_seq. apply (wi_more _ _ [Text (bs "'('")] [Name (bs "list"); Text (bs "')'")]).
      + apply (w_item "" _ _ [Text (bs "'('")] []); [|constructor]. apply wn_bare. apply wa_lit; [quo|reflexivity].
      + apply (wi_more _ _ [Name (bs "list")] [Text (bs "')'")]).
        * apply (w_item "" _ _ [Name (bs "list")] []); [|constructor]. apply wn_bare. apply (wa_rule (bs "list")). nam.
        * apply wi_one. apply (w_item "" _ _ [Text (bs "')'")] []); [|constructor]. apply wn_bare. apply wa_lit; [quo|reflexivity]. }
  apply (wt_note (bs " the end") [] [] []); [cbn; intuition discriminate|constructor|reflexivity|left; auto].
Qed.
Example C75_example : finds_tokens (w_engine (desk [])) /\ compile (w_engine (desk [])) wbnf_grammar = COk wbnf_front /\
  (forall k, drawn_ok (w_rnd (desk [])) k /\ unreserved (w_rnd (desk [])) k) /\
  text_of list_rules list_text /\ grammar_text (rules_of list_rules) = list_grammar /\
  build_text (desk []) wbnf_front 1 300 list_text = COk (inr (insert_cut_points list_grammar)) /\
  insert_cut_points list_grammar <> list_grammar.
Proof.
  split; [intros x t _; reflexivity|]. split; [vm_compute; reflexivity|]. split; [|split; [exact C75_written|]].
  - intros k. split; [split; intros; unfold seqno in *; simpl in *; unfold seqno in *; lia|]. intros i _. simpl. unfold seqno. lia.
  - split; [vm_compute; reflexivity|]. split; [vm_compute; reflexivity|]. vm_compute. discriminate.
Qed.

(** A text writes one list of rules. *)
Theorem C75_unambiguous : forall ss ss' x, text_of ss x -> text_of ss' x -> rules_of ss = rules_of ss'.
Proof.
  intros ss ss' x T T'. destruct C75_example as (S & C & DR & _).
  destruct (text_loaded _ _ ss x S C T) as (n & R & _ & _ & N & k & H). destruct (text_loaded _ _ ss' x S C T') as (n' & R' & _ & _ & N' & k' & H').
  specialize (H (desk []) 1 (N + N') eq_refl (proj1 (DR k)) (proj2 (DR k)) ltac:(lia)). specialize (H' (desk []) 1 (N + N') eq_refl (proj1 (DR k')) (proj2 (DR k')) ltac:(lia)).
  rewrite H in H'. injection H' as <-. exact (grammar_once _ _ _ R' R).
Qed.
Print Assumptions C75_unambiguous.

(** C76: README.md:14-15 says that comments between slash-star and star-slash are ignored.  A text that begins with such a comment is not read at all,
    unless the comment has one character, or stars and one more character. *)
Theorem C76_block_comments_unread : forall w wbnf w0 b y depth fuel r, finds_tokens (w_engine w) -> compile (w_engine w) wbnf_grammar = COk wbnf ->
  forallb white w0 = true -> closed b -> ~ block_body b -> let x := w0 ++ block b ++ y in
  drawn_ok (w_rnd w) (draws (text_config w) fuel wbnf "grammar" (text_scanner "" x)) ->
  load_text w wbnf depth fuel x = COk r -> r = inl BadSyntax.
Proof. exact block_unread. Qed.
Print Assumptions C76_block_comments_unread.
(** The comments of this shape are ignored, as said. *)
Theorem C76_short_comments : forall w wbnf w0 b w1 y ss depth fuel g, finds_tokens (w_engine w) -> compile (w_engine w) wbnf_grammar = COk wbnf ->
  forallb white w0 = true -> block_body b -> forallb white w1 = true -> writes_text ss y -> let x := w0 ++ block b ++ w1 ++ y in
  drawn_ok (w_rnd w) (draws (text_config w) fuel wbnf "grammar" (text_scanner "" x)) ->
  build_text w wbnf depth fuel x = COk (inr g) -> g = insert_cut_points (grammar_text (rules_of ss)).
Proof.
  intros w wbnf w0 b w1 y ss depth fuel g S C W0 B W1 T x D H.
  apply (text_built w wbnf (Note (block b) :: ss) x depth fuel g S C); auto. split; [discriminate|]. exists w0, (block b ++ w1 ++ y). repeat split; auto.
  constructor; auto.
Qed.
Print Assumptions C76_short_comments.
(** The claim itself, refuted by the comment of README.md:14-15. *)
Definition readme_comment : bytes := bs " This is a comment which may span multiple lines ".
Definition tiny_line : list (token * bytes) := [(Name (bs "a"), bs " "); (Sign "->", bs " "); (Text (bs "'x'"), []); (Sign ";", [])].
Definition tiny : list statement := [Rule "a" (CSeq [CSeq [CSeq [CLeaf "" (CLit (bs "x")) []]]])].
Definition tiny_text : bytes := [nl] ++ lay tiny_line [].
Example tiny_written : tiny_text = nl :: bs "a -> 'x';" /\ text_of tiny tiny_text.
Proof.
  split; [reflexivity|]. split; [discriminate|]. exists [nl], (lay tiny_line []). split; [reflexivity|split; [reflexivity|]].
  eapply (wt_rule (bs "a") _ [Text (bs "'x'")] _ _ []); [nam| |constructor|exact (lay_ok tiny_line [] eq_refl)].
  apply (w_stack [CSeq [CSeq [CLeaf "" (CLit (bs "x")) []]]]). apply wl_one. apply (w_choice [CSeq [CLeaf "" (CLit (bs "x")) []]]). apply wl_one. apply w_seq, wi_one.
  apply (w_item "" _ _ [Text (bs "'x'")] []); [|constructor]. apply wn_bare. apply wa_lit; [quo|reflexivity].
Qed.
Theorem C76_block_comments_refuted : exists b ss y, closed b /\ text_of ss y /\
  (exists g, build_text (desk []) wbnf_front 1 300 y = COk (inr g)) /\
  forall depth fuel r, load_text (desk []) wbnf_front depth fuel (block b ++ y) = COk r -> r = inl BadSyntax.
Proof.
  assert (C : closed readme_comment).
  { apply tail_closed. intros I. repeat (destruct I as [I|I]; [discriminate|]). destruct I. }
  exists readme_comment, tiny, tiny_text. split; [exact C|]. split; [apply tiny_written|]. split; [eexists; vm_compute; reflexivity|].
  intros depth fuel r H. destruct C75_example as (S & CW & DR & _). apply (block_unread (desk []) wbnf_front [] readme_comment tiny_text depth fuel r); auto.
  - intros [(c & Q & _)|(n & c & Q & _)]; discriminate.
  - apply DR.
Qed.
Print Assumptions C76_block_comments_refuted.
(** Comments that are read and that are not. *)
Example C76_example : block readme_comment ++ tiny_text = bs "/* This is a comment which may span multiple lines */" ++ nl :: bs "a -> 'x';" /\
  load_text (desk []) wbnf_front 1 300 (block readme_comment ++ tiny_text) = COk (inl BadSyntax) /\
  load_text (desk []) wbnf_front 1 300 (block [] ++ tiny_text) = COk (inl BadSyntax) /\
  block_body (bs "-") /\ block_body (bs "**!") /\ ~ block_body [] /\
  (exists g, build_text (desk []) wbnf_front 1 300 (block (bs "-") ++ block (bs "**!") ++ tiny_text) = COk (inr g)).
Proof.
  split; [reflexivity|]. split; [vm_compute; reflexivity|]. split; [vm_compute; reflexivity|]. split; [left; exists "-"%char; split; [reflexivity|discriminate]|].
  split; [right; exists 1%nat, "!"%char; repeat split; discriminate|]. split; [intros [(c & Q & _)|(n & c & Q & _)]; discriminate|]. eexists. vm_compute. reflexivity.
Qed.
