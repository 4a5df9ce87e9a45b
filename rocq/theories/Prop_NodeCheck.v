(** Property C86: comparisons of parse trees tell the differences. *)
From Verif Require Import Base Scanner Syntax Engine Regex Resolve Compile Parse Demo Diff DiffSpec DiffProofs NodeCheck NodeCheckSpec NodeCheckProofs.
From Coq Require Import Permutation.

(** C86: [AssertEqualNodes] holds exactly for the same trees without the mark that a list leaves for a separator that is not there ... *)
Theorem C86_decides : forall deep t x cs t' x' cs',
  assert_equal_nodes deep (Node t x cs) (Node t' x' cs') = true <-> same_tree deep (Node t x cs) (Node t' x' cs') /\ no_empty (Node t x cs).
Proof. intros. apply nodes_decide. eauto. Qed.
Print Assumptions C86_decides.
(** ... that is, for equal trees if no ASTs are attached. *)
Theorem C86_equal : forall deep t x cs t' x' cs', no_ast (Node t x cs) -> no_empty (Node t x cs) ->
  (assert_equal_nodes deep (Node t x cs) (Node t' x' cs') = true <-> Node t x cs = Node t' x' cs').
Proof. intros deep t x cs t' x' cs' NA NE. rewrite C86_decides, same_equal by auto. tauto. Qed.
Print Assumptions C86_equal.
(** It returns false exactly if it fails the test, and each failure tells a difference, at the path it names. *)
Theorem C86_failures : forall deep v u, (assert_equal_nodes deep v u = true <-> snd (assert_nodes deep v u []) = []) /\
  (forall c, In c (snd (assert_nodes deep v u [])) -> rightly deep v u c).
Proof. intros deep v u. split; [apply nodes_silent|]. intros c. apply nodes_rightly; constructor. Qed.
Print Assumptions C86_failures.
(** The report of [NodeDiff] lists exactly the tags, extras and numbers of children that differ between nodes at the same place, with this place, whatever the order of the maps; it is
    empty exactly if [Equal] holds. *)
Theorem C86_report : forall order t x cs t' x' cs', (forall A l, Permutation (order A l) l) -> facing (Node t x cs) (Node t' x' cs') ->
  exists d ms e, node_diff (Node t x cs) (t', x', cs') = Some d /\ report order [] d = Some ms /\ ndiff_equal d = Some e /\
    (forall m, In m ms <-> truly (Node t x cs) (Node t' x' cs') m) /\ (ms = [] <-> e = true).
Proof.
  intros order t x cs t' x' cs' O F. destruct (nodes_report _ _ _ _ _ _ F) as (d & e & D & E & S).
  destruct (report_ok order O (Node t x cs) t' x' cs' d []) as (ms & R & M); eauto. exists d, ms, e. do 3 (split; [auto|]). split.
  - intros m. rewrite M. unfold under. cbn [app]. split; [intros (m' & -> & T); now destruct m'|intros T; exists m; destruct m; auto].
  - split.
    + intros ->. apply S. apply silent_same; auto. intros m T. apply (proj2 (M m)). exists m. destruct m. auto.
    + intros ->. destruct ms as [|m ms]; auto. destruct (proj1 (M m) (or_introl eq_refl)) as (m' & _ & T). exfalso. eapply same_nodes_silent; [apply S|]; eauto.
Qed.
Print Assumptions C86_report.

(** ** Examples *)
Definition leaf (x : string) : tree := Leaf (new_scanner (bs x)).
Definition one : tree := Node "a" (XChoice 1) [leaf "x"; Node "b" XNone [leaf "y"]; Node "c" XNone []].
Definition two : tree := Node "a" (XChoice 1) [leaf "x"; Node "b" XNone [leaf "z"]; Node "d" XNone [leaf "u"]].
Definition none (x y : branch) : bool := false.
Example C86_example : no_ast one /\ no_empty one /\ assert_equal_nodes none one one = true /\ assert_equal_nodes none one two = false /\
  snd (assert_nodes none one two []) =
    [CLeaf [1; 0] (new_scanner (bs "y")) (new_scanner (bs "z")); CTag [2] "c" "d"; CLength 0 1; CSurplus [2; 0] (leaf "u")] /\
  facing one two /\
  match node_diff one ("a"%string, XChoice 1, [leaf "x"; Node "b" XNone [leaf "z"]; Node "d" XNone [leaf "u"]]) with
  | Some d => report (fun A l => rev l) [] d = Some [([("c"%string, 2)], DTag "c" "d"); ([("c"%string, 2)], DCount 0 1)]
  | None => False
  end.
Proof.
  split; [repeat constructor; discriminate|]. split; [repeat constructor|]. do 3 (split; [reflexivity|]). split; [repeat constructor; discriminate|]. reflexivity.
Qed.

(** ** What does not hold *)
(** A tree need not be found equal to itself: lists that may start with a separator mark a missing item in their trees. *)
Definition started : grammar := [("a"%string, TDelim (TS (bs "x")) (TS (bs ",")) NonAssociative true false)].
Theorem C86_itself_refuted : exists g r x v s', parse_rule call 90 (parsers_of g) r (text x) = (ROk v, s') /\ no_ast v /\ forall deep, assert_equal_nodes deep v v = false.
Proof. exists started, "a"%string, ",x"%string. do 2 eexists. split; [vm_compute; reflexivity|]. split; [repeat constructor; discriminate|]. intros deep. reflexivity. Qed.
Print Assumptions C86_itself_refuted.
