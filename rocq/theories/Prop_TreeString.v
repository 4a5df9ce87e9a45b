(** Property C82: printed parse trees. *)
From Verif Require Import Base Scanner ScannerSpec Syntax Engine Resolve Compile Parse Regex RegexProofs Codegen Treeview TreeviewProofs
  NodeString NodeStringSpec NodeStringProofs PegSpec DerivSpec CutSpec DrawProofs ApiProofs Demo TreeString TreeStringSpec TreeStringProofs.
From Verif Require Prop_NodeString.
Local Open Scope list_scope.

(** C82: "%q" of a tree tells the tree ... *)
Theorem C82_quoted : forall quote quote_rune, quotes quote -> rune_quotes quote_rune -> forall t t' x,
  plain_tree (fun _ => True) t -> plain_tree (fun _ => True) t' ->
  tree_format quote quote_rune ByQ t = Some x -> tree_format quote quote_rune ByQ t' = Some x -> look_alike t t'.
Proof. exact quoted_tells. Qed.
Print Assumptions C82_quoted.

(** ... so does that of a tree from parsing ... *)
Theorem C82_parsed : forall quote quote_rune, quotes quote -> rune_quotes quote_rune ->
  forall c g ps r f s v s1, cf_esc c = None -> compile (cf_eng c) g = COk ps -> readable g -> good_grammar g -> good_tag r ->
  drawn_ok (cf_rnd c) (draws c f ps r s) -> result (parse_rule c f ps r s) v s1 ->
  forall c' g' ps' r' f' s' v' s1', cf_esc c' = None -> compile (cf_eng c') g' = COk ps' -> readable g' -> good_grammar g' -> good_tag r' ->
  drawn_ok (cf_rnd c') (draws c' f' ps' r' s') -> result (parse_rule c' f' ps' r' s') v' s1' ->
  forall x, tree_format quote quote_rune ByQ v = Some x -> tree_format quote quote_rune ByQ v' = Some x -> look_alike v v'.
Proof. exact parsed_tells. Qed.
Print Assumptions C82_parsed.

(** ... and "%v" or "%s" if the texts of the leaves do not look like the rest of it. *)
Theorem C82_plain : forall quote quote_rune v, v <> ByQ -> forall t t' x, plain_tree good_text t -> plain_tree good_text t' ->
  tree_format quote quote_rune v t = Some x -> tree_format quote quote_rune v t' = Some x -> look_alike t t'.
Proof. exact plain_tells. Qed.
Print Assumptions C82_plain.

(** Trees that look alike are printed alike, whatever the verb. *)
Theorem C82_alike : forall quote quote_rune v t t', look_alike t t' -> tree_format quote quote_rune v t = tree_format quote quote_rune v t'.
Proof. exact alike_same. Qed.
Print Assumptions C82_alike.

(** Printing succeeds if the leaves have texts. *)
Theorem C82_total : forall quote quote_rune v t, printable t -> exists x, tree_format quote quote_rune v t = Some x.
Proof. exact printable_prints. Qed.
Print Assumptions C82_total.

(** [Normalize] gives the tree it is called on. *)
Theorem C82_normalize : forall t, tree_normalize t = t.
Proof. exact normalize_same. Qed.
Print Assumptions C82_normalize.

(** Ways of quoting. *)
Notation in_quotes := Prop_NodeString.in_quotes.
Definition rune_in_quotes (n : nat) : bytes := "'"%char :: bs (dec n) ++ ["'"%char].
Lemma rune_in_quotes_ok : rune_quotes rune_in_quotes.
Proof.
  split; [unfold rune_in_quotes; eauto|]. intros n m r r' _ _ E. unfold rune_in_quotes in E. injection E as E. rewrite <- !app_assoc in E.
  destruct (digits_end (bs (dec n)) (bs (dec m)) "'"%char r r') as [H ->]; auto; try apply dec_digits. split; auto. apply dec_inj; auto.
Qed.

(** Sums, and what their trees print as.  [String] writes choices as fmt writes a wrong verb. *)
Example C82_example :
  quotes in_quotes /\ rune_quotes rune_in_quotes /\ compile regex_engine sums = COk (parsers_of sums) /\ readable sums /\
  good_grammar sums /\ good_tag "e" /\
  exists v s', result (parse_rule call 50 (parsers_of sums) "e" (text "12-3")) v s' /\ plain_tree (fun _ => True) v /\ plain_tree good_text v /\ printable v /\
    tree_format in_quotes rune_in_quotes ByV v = Some (bs "e║:>[n║0[12], |║1[-], n║0[3]]") /\
    tree_format in_quotes rune_in_quotes ByQ v = Some (bs "e║""=:=>""[n║'0'[""=1=2""], |║'1'[""=-""], n║'0'[""=3""]]") /\
    tree_string in_quotes rune_in_quotes v =
      Some (bs "e║:>[n║%!s(parser.Choice=0)[12], |║%!s(parser.Choice=1)[-], n║%!s(parser.Choice=0)[3]]").
Proof.
  assert (GT : forall x, In x ["e"; "n"; "|"]%string -> good_tag x).
  { intros x I. unfold good_tag, unmarked. cbn in I. destruct I as [<-|[<-|[<-|[]]]]; repeat split; cbn; intuition (subst; discriminate). }
  assert (GX : forall x, In x [bs "12"; bs "-"; bs "3"] -> good_text x).
  { intros x I. unfold good_text, unmarked. cbn in I. destruct I as [<-|[<-|[<-|[]]]]; repeat split; cbn; try discriminate; intuition (subst; discriminate). }
  split; [exact Prop_NodeString.in_quotes_quotes|]. split; [exact rune_in_quotes_ok|]. split; [reflexivity|]. split; [split; reflexivity|].
  split; [repeat constructor; try (apply GT; cbn; auto 10); cbn; try lia|]. split; [apply GT; cbn; auto|].
  assert (LT : forall i j x, sslice (slice (text "12-3") i j) = Some x -> leaf_of (slice (text "12-3") i j) x) by (intros; apply leaf_of_slice; auto).
  exists (Node "e" (XAssoc LeftToRight) [Node "n" (XChoice 0) [Leaf (slice (text "12-3") 0 2)];
    Node "|" (XChoice 1) [Leaf (slice (text "12-3") 2 3)]; Node "n" (XChoice 0) [Leaf (slice (text "12-3") 3 4)]]). eexists.
  split; [left; vm_compute; reflexivity|].
  assert (PL : forall P : bytes -> Prop, (forall x, In x [bs "12"; bs "-"; bs "3"] -> P x) -> plain_tree P
    (Node "e" (XAssoc LeftToRight) [Node "n" (XChoice 0) [Leaf (slice (text "12-3") 0 2)];
    Node "|" (XChoice 1) [Leaf (slice (text "12-3") 2 3)]; Node "n" (XChoice 0) [Leaf (slice (text "12-3") 3 4)]])).
  { intros P HP.
    assert (C : forall n m : nat, XChoice n = XChoice m -> (n < 2)%nat -> (Z.of_nat m < 55296)%Z) by (intros n m Q L; injection Q as <-; lia).
    repeat (first [apply Forall_nil|apply Forall_cons|apply pl_leaf; intros x HL; apply leaf_of_slice in HL; vm_compute in HL; injection HL as <-; apply HP; cbn; auto
                  |apply pl_node; [apply GT; cbn; auto 10|discriminate|intros m Q; first [discriminate|apply (C _ _ Q); lia]|]]). }
  split; [apply PL; auto|]. split; [apply PL; auto|].
  split; [repeat (first [apply Forall_nil|apply Forall_cons|eapply pt_leaf; apply leaf_of_slice; vm_compute; reflexivity|apply pt_node; [discriminate|]])|].
  repeat split; vm_compute; reflexivity.
Qed.

(** Without quotes, different trees of one grammar may be printed alike, and a leaf without text is like no leaf. *)
Definition words : grammar := [("a"%string, TQuant (TRE (bs "x, y|x|y")) 1 0)].
Theorem C82_refuted :
  (exists v v' s1 s1', parse_rule call 50 (parsers_of words) "a" (text "xy") = (ROk v, s1) /\
    parse_rule call 50 (parsers_of words) "a" (text "x, y") = (ROk v', s1') /\ ~ look_alike v v' /\
    tree_format in_quotes rune_in_quotes ByV v = Some (bs "a[x, y]") /\ tree_format in_quotes rune_in_quotes ByV v' = Some (bs "a[x, y]")) /\
  exists t t', ~ look_alike t t' /\ printable t /\ printable t' /\ tree_string in_quotes rune_in_quotes t = tree_string in_quotes rune_in_quotes t' /\
    t = Node "a" XNone [] /\ t' = Node "a" XNone [Leaf (new_scanner [])].
Proof.
  split.
  - do 4 eexists. split; [vm_compute; reflexivity|]. split; [vm_compute; reflexivity|]. split; [|split; vm_compute; reflexivity].
    intros L. inversion L as [tag x cs ds F| |]; subst. inversion F as [|? ? ? ? _ F']; subst. inversion F'.
  - do 2 eexists. split; [|split; [|split; [|split; [|split; reflexivity]]]].
    + intros L. inversion L as [tag x cs ds F| |]; subst. inversion F.
    + constructor; [discriminate|constructor].
    + constructor; [discriminate|]. repeat constructor. eapply pt_leaf. apply leaf_of_slice. reflexivity.
    + reflexivity.
Qed.
Print Assumptions C82_refuted.
