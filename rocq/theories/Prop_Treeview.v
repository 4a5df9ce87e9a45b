(** Properties C70 and C71: tree views of ASTs. *)
From Verif Require Import Base Scanner ScannerSpec Syntax Engine Resolve Compile Parse Regex RegexProofs PegSpec DerivSpec FlowSpec FlowProofs CutSpec ApiSpec
  ApiProofs Demo Prop_Parse Prop_Ast Ast AstSpec AstDemo Gotree GotreeSpec Treeview TreeviewSpec TreeviewProofs TreeviewOrder TreeviewDemo TreeviewCheck.
Local Open Scope string_scope.
Local Open Scope list_scope.

(** C70: whatever the order of maps and the sorting, the items without items of a view are the
    leaves, data and hollow branches that are shown, each once. *)
Theorem C70_ends : forall quote extra skip ord sorter path k n t l, any_order ord -> sorts sorter ->
  ends quote extra skip k n l -> from_ast quote extra skip ord sorter path k n = Some t -> Permutation (tips t) l.
Proof. exact view_ends. Qed.
Print Assumptions C70_ends.

(** The label of a leaf tells its offset and its text, if quoting is faithful. *)
Theorem C70_labels : forall quote, (forall x y, quote x = quote y -> x = y) -> (forall x, exists r, quote x = """"%char :: r) ->
  forall s s' x, label quote s x -> label quote s' x -> offset s = offset s' /\ sstring s = sstring s'.
Proof. exact label_injective. Qed.
Print Assumptions C70_labels.

(** Texts for the examples. *)
Definition piece (o : string) (i n : Z) : scanner := mkScanner (Some (mkSource (bs o) "")) i n.
Lemma quoted_injective : forall x y, quoted x = quoted y -> x = y.
Proof. intros x y E. unfold quoted in E. apply app_inv_head in E. now apply app_inv_tail in E. Qed.

(** A leaf, data, a branch that is hollow since it has but a tag, and two leaves of a name. *)
Definition mixed : anode := ABranch
  [("@rule", One (AExtra (DRule "a"))); ("x", Many [ALeaf (piece "u(v" 2 1); ALeaf (piece "u(v" 1 1)]);
   ("y", One (ABranch [("@choice", Many [AExtra (DChoice 1)])])); ("", One (ALeaf (piece "u(v" 0 1)))].
Example C70_example :
  any_order back /\ sorts (sorting false) /\
  ends quoted data_text true "a" mixed (map bs ["2‣v"; "1‣""("""; "y"; "0‣u"]) /\
  (exists t, from_ast quoted data_text true back (sorting false) [] "a" mixed = Some t /\
     tips t = map bs ["y"; "0‣u"; "1‣""("""; "2‣v"]) /\
  (forall x y, quoted x = quoted y -> x = y) /\ (forall x, exists r, quoted x = """"%char :: r).
Proof.
  split; [exact back_any|]. split; [apply sorting_sorts|]. split.
  - assert (H : forall k, (match k with String "@" _ => false | _ => true end) = true -> ~ hidden true k).
    { intros k E [_ [r ->]]. discriminate E. }
    change (map bs ["2‣v"; "1‣""("""; "y"; "0‣u"]) with (concat [[]; map bs ["2‣v"; "1‣""("""]; map bs ["y"]; map bs ["0‣u"]]).
    eapply en_branch with (k' := "") (c := One (ALeaf (piece "u(v" 0 1))).
    + simpl. auto.
    + now apply H.
    + discriminate.
    + repeat (apply Forall2_cons || apply Forall2_nil).
      * apply ek_hidden. split; eauto.
      * change (map bs ["2‣v"; "1‣""("""]) with (concat [[bs "2‣v"]; [bs "1‣""("""]]).
        apply ek_many; [now apply H|]. repeat (apply Forall2_cons || apply Forall2_nil); apply en_leaf; apply label_string; split; vm_compute; auto; discriminate.
      * apply ek_one; [now apply H|]. apply en_hollow. intros k' c [E|[]]. inversion E; subst. left. split; eauto.
      * apply ek_one; [now apply H|]. apply en_leaf; apply label_string; split; vm_compute; auto; discriminate.
  - split; [eexists; split; vm_compute; reflexivity|]. split; [exact quoted_injective|]. intros x. eexists. reflexivity.
Qed.

(** C71: the view of a settled AST does not depend on the order of maps or on the sorting, and
    shows the leaves in the order of the text ... *)
Theorem C71_order : forall quote extra n l k, settled n -> reads n l -> climbing 0 l ->
  Forall (fun s => (offset s <= max_int)%Z /\ exists x, sstring s = Some x) l ->
  exists t, Forall2 (label quote) l (tips t) /\
    forall ord sorter path, any_order ord -> sorts sorter -> from_ast quote extra true ord sorter path k n = Some t.
Proof. exact settled_view. Qed.
Print Assumptions C71_order.

(** ... so that after a parse the leaves of the tree are shown in their order. *)
Theorem C71_parsed : forall c, cf_esc c = None -> forall g ps, compile (cf_eng c) g = COk ps -> readable (p_grammar ps) ->
  forall f r s v s', engine_ok (cf_eng c) -> in_range s -> (forall o, src s = Some o -> (blen (origin o) <= max_int)%Z) ->
  patterns_grammar (participates (cf_eng c)) (p_grammar ps) -> no_look_grammar (p_grammar ps) = true ->
  drawn_ok (cf_rnd c) (draws c f ps r s) -> result (parse_rule c f ps r s) v s' ->
  forall n b g', from_parser_node n (p_grammar ps) v = COk (b, g') ->
  settled (ABranch b) -> (forall s, In s (leaves v) -> slen s <> 0%Z) ->
  forall quote extra k, exists t, Forall2 (label quote) (leaves v) (tips t) /\
    forall ord sorter path, any_order ord -> sorts sorter -> from_ast quote extra true ord sorter path k (ABranch b) = Some t.
Proof. exact compiled_view. Qed.
Print Assumptions C71_parsed.

(** The view of a parsed text. *)
Definition view_of (g : grammar) (r x : string) (skip : bool) ord sorter : option (list string) :=
  match ast_of g r x with
  | Some (COk (b, _)) =>
      match tree_view quoted data_text skip ord sorter (fun n => 2 * n) r (ABranch b) with Some t => Some (map sb (split_nl t)) | None => None end
  | _ => None
  end.
Example C71_example :
  compile regex_engine listing = COk (parsers_of listing) /\ p_grammar (parsers_of listing) = listing /\ readable listing /\
  patterns_grammar (participates regex_engine) listing /\ no_look_grammar listing = true /\
  (exists v s' b, result (parse_rule call 300 (parsers_of listing) "a" (text "(x,yz)")) v s' /\
     from_parser_node 300 listing v = COk (b, listing) /\ settled (ABranch b) /\ (forall s, In s (leaves v) -> slen s <> 0%Z)) /\
  view_of listing "a" "(x,yz)" true forth (sorting true) =
    Some ["a"; "├── 0‣""("""; "├── b"; "│   ├── c"; "│   │   └── 1‣x"; "│   ├── 2‣"","""; "│   └── c"; "│       └── 3‣yz"; "└── 5‣"")"""; ""] /\
  view_of listing "a" "(x,yz)" true back (sorting false) = view_of listing "a" "(x,yz)" true forth (sorting true).
Proof.
  split; [vm_compute; reflexivity|]. split; [vm_compute; reflexivity|]. split; [split; vm_compute; reflexivity|]. split.
  { apply no_groups_participates; [exact regex_engine_ok|]. split; [reflexivity|]. intros r t L. unfold listing in L. simpl in L.
    repeat match type of L with context [if ?b then _ else _] => destruct b; [inversion L; subst; vm_compute; auto 10|] end. discriminate. }
  split; [vm_compute; reflexivity|]. split; [|split; vm_compute; reflexivity].
  do 3 eexists. split; [left; vm_compute; reflexivity|]. split; [vm_compute; reflexivity|]. split; [apply settled_check; vm_compute; reflexivity|].
  intros s I. vm_compute in I. repeat destruct I as [<-|I]; try discriminate. destruct I.
Qed.

(** With the names that start with "@" the view depends on the order of the map ... *)
Theorem C71_tags_refuted : exists g r x b ord ord' sorter, ast_of g r x = Some (COk (b, g)) /\ any_order ord /\ any_order ord' /\ sorts sorter /\
  settled (ABranch b) /\
  tree_view quoted data_text false ord sorter (fun n => 2 * n) r (ABranch b) <> tree_view quoted data_text false ord' sorter (fun n => 2 * n) r (ABranch b).
Proof.
  exists listing, "a", "(x,yz)". eexists. exists forth, back, (sorting true). split; [vm_compute; reflexivity|].
  split; [exact forth_any|]. split; [exact back_any|]. split; [apply sorting_sorts|]. split; [apply settled_check; vm_compute; reflexivity|].
  vm_compute. intros E. discriminate E.
Qed.
Print Assumptions C71_tags_refuted.

(** ... with a hollow branch leaves are out of order: "z" before "x" ... *)
Definition hollow : grammar := [("r", TSeq [lit "a"; TNamed "p" (lit "x"); TNamed "q" (TSeq [TNamed "h" (TQuant (lit "k") 0 1); lit "z"])])].
Theorem C71_hollow_refuted : exists g r x v b, tree_of g r x = Some v /\ from_parser_node 300 g v = COk (b, g) /\
  (forall s, In s (leaves v) -> slen s <> 0%Z) /\
  exists ord sorter t, any_order ord /\ sorts sorter /\ from_ast quoted data_text true ord sorter [] r (ABranch b) = Some t /\
    tips t = map bs ["0‣a"; "h"; "2‣z"; "1‣x"].
Proof.
  exists hollow, "r", "axz". do 2 eexists. split; [vm_compute; reflexivity|]. split; [vm_compute; reflexivity|]. split.
  { intros s I. vm_compute in I. repeat destruct I as [<-|I]; try discriminate. destruct I. }
  exists forth, (sorting true). eexists. split; [exact forth_any|]. split; [apply sorting_sorts|]. split; vm_compute; reflexivity.
Qed.
Print Assumptions C71_hollow_refuted.

(** ... and with an empty leaf they may be: the empty "y" comes first in the text, and both items start at 1. *)
Definition void : grammar := [("r", TSeq [lit "a"; TNamed "p" (TRE (bs "y*")); TNamed "q" (TSeq [TRE (bs "w*"); lit "x"; lit "z"])])].
Theorem C71_empty_refuted : exists g r x v b, tree_of g r x = Some v /\ from_parser_node 300 g v = COk (b, g) /\ settled (ABranch b) /\
  exists ord sorter t, any_order ord /\ sorts sorter /\ from_ast quoted data_text true ord sorter [] r (ABranch b) = Some t /\
    tips t = map bs ["0‣a"; "1‣x"; "1‣"; "2‣z"; "1‣"].
Proof.
  exists void, "r", "axz". do 2 eexists. split; [vm_compute; reflexivity|]. split; [vm_compute; reflexivity|].
  split; [apply settled_check; vm_compute; reflexivity|].
  exists forth, (sorting false). eexists. split; [exact forth_any|]. split; [apply sorting_sorts|]. split; vm_compute; reflexivity.
Qed.
Print Assumptions C71_empty_refuted.
