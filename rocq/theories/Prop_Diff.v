(** Properties C43 and C44: comparing grammars and parse trees. *)
From Verif Require Import Base Scanner Syntax Diff DiffSpec DiffProofs WbnfGrammar.

(** C43: the comparison of two grammars without external references, in which the name of a back
    reference tells whether it has a default, does not panic; its report is empty exactly if the
    grammars have the same rules; and it lists exactly the rules that differ. *)
Theorem C43_grammars_compared : forall D a b, diffable_grammar D a -> diffable_grammar D b ->
  exists d, grammars a b = Some d /\
    (gdiff_equal d = true <-> same_grammar a b) /\
    (forall k, In k (only_a d) <-> In k (keys a) /\ ~ In k (keys b)) /\
    (forall k, In k (only_b d) <-> In k (keys b) /\ ~ In k (keys a)) /\
    (forall k, In k (keys (prods d)) <-> exists x y, In (k, x) a /\ In (k, y) b /\ ~ same x y).
Proof. exact grammars_ok. Qed.
Print Assumptions C43_grammars_compared.

(** Terms alone are compared the same way. *)
Theorem C43_terms_compared : forall D a b, maps_ok a -> maps_ok b -> diffable D a -> diffable D b ->
  exists d e, terms a b = Some d /\ tdiff_equal d = Some e /\ (e = true <-> same a b).
Proof. exact terms_ok. Qed.
Print Assumptions C43_terms_compared.

Definition left_grammar : grammar :=
  [("a"%string, TScoped (TRule "x") [("x"%string, TS (bs "1")); ("y"%string, TREF "r" (Some (bs "d")))]);
   ("b"%string, L2R (TRE (bs "[a-z]+")) (TS (bs ","))); ("c"%string, TREF "q" None)].
Definition right_grammar : grammar :=
  [("c"%string, TREF "q" None);
   ("a"%string, TScoped (TRule "x") [("y"%string, TREF "r" (Some (bs "d"))); ("x"%string, TS (bs "1"))]);
   ("b"%string, R2L (TRE (bs "[a-z]+")) (TS (bs ","))); ("e"%string, TSeq [])].
Example C43_example :
  diffable_grammar (String.eqb "r") left_grammar /\ diffable_grammar (String.eqb "r") right_grammar /\
  option_map (fun d => (only_a d, only_b d, keys (prods d))) (grammars left_grammar right_grammar) =
    Some ([], ["e"%string], ["b"%string]) /\
  diffable_grammar (fun _ => false) wbnf_grammar /\
  option_map gdiff_equal (grammars left_grammar left_grammar) = Some true.
Proof.
  split; [|split; [|split; [|split]]]; try reflexivity.
  - split; [repeat constructor; simpl; intuition discriminate|].
    repeat constructor; simpl; intuition discriminate.
  - split; [repeat constructor; simpl; intuition discriminate|].
    repeat constructor; simpl; intuition discriminate.
  - split; [vm_compute; repeat constructor; simpl; intuition discriminate|].
    vm_compute. repeat constructor; simpl; intuition discriminate.
Qed.

(** External references: the first one is compared with itself, so different ones count as equal
    and comparing the grammars panics. *)
Theorem C43_external_references_refuted : exists x y, ~ same x y /\
  (exists d, terms x y = Some d /\ tdiff_equal d = Some true) /\ grammars [("a"%string, x)] [("a"%string, y)] = None.
Proof.
  exists (TExtRef "f"), (TExtRef "g"). split; [intro H; inversion H|]. split; [|reflexivity].
  eexists. split; reflexivity.
Qed.
Print Assumptions C43_external_references_refuted.

(** A back reference with a default against one without: the comparison panics. *)
Theorem C43_defaults_refuted : exists a b : grammar, NoDup (keys a) /\ NoDup (keys b) /\ grammars a b = None.
Proof.
  exists [("a"%string, TREF "x" (Some (bs "1")))], [("a"%string, TREF "x" None)].
  repeat split; try reflexivity; repeat constructor; simpl; auto.
Qed.
Print Assumptions C43_defaults_refuted.

(** C44: an empty tree report does not mean equal trees ... *)
Theorem C44_leaves_refuted : exists a b d, a <> b /\ (exists t x cs, b = Node t x cs /\ node_diff a (t, x, cs) = Some d) /\
  ndiff_equal d = Some true /\ leaves a <> leaves b.
Proof.
  exists (Node "_" XNone [Leaf (new_scanner (bs "1"))]), (Node "_" XNone [Leaf (new_scanner (bs "2"))]).
  eexists. split; [discriminate|]. split; [exists "_"%string, XNone; eexists; split; reflexivity|].
  split; [reflexivity|discriminate].
Qed.
Print Assumptions C44_leaves_refuted.

(** ... not even the same shape: a leaf of the first tree may face a node of the second ... *)
Theorem C44_shape_refuted : exists a t x cs d, node_diff a (t, x, cs) = Some d /\ ndiff_equal d = Some true /\
  length (leaves a) <> length (leaves (Node t x cs)).
Proof.
  exists (Node "_" XNone [Leaf (new_scanner (bs "1"))]), "_"%string, XNone, [Node "_" XNone []].
  eexists. split; [reflexivity|]. split; [reflexivity|discriminate].
Qed.
Print Assumptions C44_shape_refuted.

(** ... what it does mean: every node of the first tree has a counterpart with the same tag, extra
    and number of children. *)
Theorem C44_nodes_compared : forall t x cs tb xb cb, facing (Node t x cs) (Node tb xb cb) ->
  exists d e, node_diff (Node t x cs) (tb, xb, cb) = Some d /\ ndiff_equal d = Some e /\
    (e = true <-> same_nodes (Node t x cs) (Node tb xb cb)).
Proof. exact nodes_report. Qed.
Print Assumptions C44_nodes_compared.

Example C44_example :
  let a := Node "a" XNone [Node "b" (XChoice 1) [Leaf (new_scanner (bs "1"))]; Empty] in
  let b := Node "a" XNone [Node "b" (XChoice 2) [Leaf (new_scanner (bs "1"))]; Empty] in
  facing a b /\ same_nodes a a /\ ~ same_nodes a b.
Proof.
  cbv zeta. split; [|split].
  - constructor; [discriminate|]. apply fa_cons; [constructor; [discriminate|]|]; repeat constructor.
  - constructor; [discriminate|]. repeat constructor; discriminate.
  - intro H. inversion H as [? ? ? ? ? F| |]. inversion F as [|? ? ? ? G]. inversion G.
Qed.
