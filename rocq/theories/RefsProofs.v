(** What validation checks about references. *)
From Verif Require Import Base Scanner Syntax Engine Resolve Compile Ast AstProofs WbnfAst Walker WalkerSpec WalkerProofs Build CutPoints CutPointSpec
  CutPointProofs StackSpec StackProofs Recursion Validate RefsSpec.
From Coq Require Import Permutation.

(** * The nodes a walk calls its callbacks for *)

Section Reach.
  Variable skips : kind -> anode -> bool.
  Inductive reach : kind -> anode -> kind -> anode -> Prop :=
  | reach_here k n : reach k n k n
  | reach_child k n k1 n1 k' m : leaf_kind k = false -> skips k n = false -> In (k1, n1) (visited k n) ->
      reach k1 n1 k' m -> reach k n k' m.
End Reach.

Lemma one_all_of : forall name n m, In m (all name n) -> exists b, n = ABranch b /\
  (lookup name b = Some (One m) \/ exists l, lookup name b = Some (Many l) /\ In m l).
Proof.
  intros name n m. unfold all, all_of. destruct n as [b| |]; simpl; try tauto.
  unfold get_one, get_many. destruct (lookup name b) as [[c|l]|] eqn:K; simpl; intros H; try tauto.
  - destruct H as [->|[]]. eauto.
  - exists b. split; auto. right. eauto.
Qed.
Lemma all_below_tree : forall name n m, In m (all name n) -> below n m.
Proof.
  intros name n m H. destruct (one_all_of _ _ _ H) as (b & -> & [K|(l & K & I)]); apply lookup_In in K.
  - eapply below_one; eauto. constructor.
  - eapply below_many; eauto. constructor.
Qed.
Lemma below_trans : forall a b c, below a b -> below b c -> below a c.
Proof. induction 1; intros; auto; [eapply below_one|eapply below_many]; eauto. Qed.
Lemma visited_all : forall k n k' m, In (k', m) (visited k n) -> exists name, In m (all name n).
Proof.
  intros k n k' m H. unfold visited in H. apply in_flat_map in H as (((name & many) & k2) & F & H).
  apply in_map_iff in H as (m' & E & H). injection E as <- <-. exists name. destruct many; auto.
  destruct (one name n) as [x|] eqn:O; simpl in H; [|tauto]. destruct H as [->|[]]. now apply one_all.
Qed.
Lemma reach_below : forall skips k n k' m, reach skips k n k' m -> below n m.
Proof.
  induction 1; [constructor|]. eapply below_trans; [|eauto]. destruct (visited_all _ _ _ _ H1). eapply all_below_tree; eauto.
Qed.
Lemma plain_below : forall n m, plain_tree n -> below n m -> plain_tree m.
Proof. intros n m P B b H. apply P. eapply below_trans; eauto. Qed.
Lemma plain_all : forall n, plain_tree n -> all "grammar" n = [] /\ all "macrodef" n = [].
Proof.
  intros n P. destruct n as [b| |]; auto. destruct (P b (below_refl _)) as [A B].
  unfold all, all_of. simpl. unfold get_one, get_many. now rewrite A, B.
Qed.

(** The callbacks called during a walk: all those of the nodes reached. *)
Section Calls.
  Context {St : Type}.
  Variables (enter : kind -> anode -> St -> cres (option stopper * St)) (skips : kind -> anode -> bool) (R : St -> St -> Prop).
  Hypothesis R_refl : forall st, R st st.
  Hypothesis R_trans : forall a b c, R a b -> R b c -> R a c.
  Hypothesis calls : forall k n st s st', enter k n st = COk (s, st') ->
    R st st' /\ s = if (negb (leaf_kind k) && skips k n)%bool then Some NodeExiter else None.
  Let exit (k : kind) (n : anode) (st : St) : cres (option stopper * St) := COk (None, st).

  Lemma walk_calls : forall fuel k n st s st', walk enter exit fuel k n st = COk (s, st') ->
    s = None /\ R st st' /\
    forall k' m, reach skips k n k' m -> exists st1 s1 st2, R st st1 /\ enter k' m st1 = COk (s1, st2) /\ R st2 st'.
  Proof.
    induction fuel as [|fuel IH]; intros k n st s st' H; [discriminate|]. cbn [walk] in H.
    apply cbind_inv in H as ((s1 & st1) & E1 & H). destruct (calls _ _ _ _ _ E1) as [R1 S1].
    destruct (leaf_kind k) eqn:LK.
    - injection H as <- <-. cbn [negb andb] in S1. split; auto. split; auto. intros k' m Q. inversion Q; subst; [|congruence].
      exists st, None, st1. auto.
    - cbn [negb andb] in S1. destruct (skips k n) eqn:SK; subst s1; cbn [reaction NodeExiter exit_node] in H.
      + injection H as <- <-. split; auto. split; auto. intros k' m Q. inversion Q; subst; [|congruence].
        exists st, (Some NodeExiter), st1. auto.
      + apply cbind_inv in H as (c & C & H).
        assert (CH : forall l st c, walk_children (walk enter exit fuel) l st = COk c -> exists st', c = inr st' /\ R st st' /\
          forall k1 n1, In (k1, n1) l -> forall k' m, reach skips k1 n1 k' m -> exists st1 s1 st2, R st st1 /\ enter k' m st1 = COk (s1, st2) /\ R st2 st').
        { clear - IH R_refl R_trans. induction l as [|[k1 n1] l IHl]; intros st c C; cbn [walk_children] in C.
          - injection C as <-. exists st. split; auto. split; auto. intros ? ? [].
          - apply cbind_inv in C as ((s1 & st1) & E1 & C). destruct (IH _ _ _ _ _ E1) as (-> & R1 & Q1). cbn [reaction] in C.
            destruct (IHl _ _ C) as (st' & -> & R2 & Q2). exists st'. split; auto. split; [eauto|].
            intros k2 n2 [X|X] k' m Q.
            + injection X as <- <-. destruct (Q1 _ _ Q) as (a & b & d & ? & ? & ?). exists a, b, d. repeat split; eauto.
            + destruct (Q2 _ _ X _ _ Q) as (a & b & d & ? & ? & ?). exists a, b, d. repeat split; eauto. }
        destruct (CH _ _ _ C) as (st2 & -> & R2 & Q2). cbn [exit cbind] in H. injection H as <- <-.
        split; auto. split; [eauto|]. intros k' m Q. inversion Q as [|? ? k1 n1 ? ? L1 L2 I1 Q1]; subst.
        * exists st, None, st1. auto.
        * destruct (Q2 _ _ I1 _ _ Q1) as (a & b & d & ? & ? & ?). exists a, b, d. repeat split; eauto.
  Qed.

  (** What every call from a reached node preserves is preserved by the walk. *)
  Lemma walk_invariant : forall (P : St -> Prop) fuel k n st s st',
    (forall k' m st s st', reach skips k n k' m -> P st -> enter k' m st = COk (s, st') -> P st') ->
    P st -> walk enter exit fuel k n st = COk (s, st') -> P st'.
  Proof.
    intros P. induction fuel as [|fuel IH]; intros k n st s st' PR P0 H; [discriminate|]. cbn [walk] in H.
    apply cbind_inv in H as ((s1 & st1) & E1 & H). destruct (calls _ _ _ _ _ E1) as [R1 S1].
    assert (P1 : P st1) by (eapply PR; [constructor|exact P0|exact E1]).
    destruct (leaf_kind k) eqn:LK; [now injection H as <- <-|].
    cbn [negb andb] in S1. destruct (skips k n) eqn:SK; subst s1; cbn [reaction NodeExiter exit_node] in H; [now injection H as <- <-|].
    apply cbind_inv in H as (c & C & H).
    assert (CH : forall l st c, (forall k1 n1, In (k1, n1) l -> In (k1, n1) (visited k n)) -> P st ->
      walk_children (walk enter exit fuel) l st = COk c -> exists st', c = inr st' /\ P st').
    { induction l as [|[k1 n1] l IHl]; intros st0 c0 SUB P2 C0; cbn [walk_children] in C0; [injection C0 as <-; eauto|].
      apply cbind_inv in C0 as ((s2 & st2) & E2 & C0). pose proof (walk_calls _ _ _ _ _ _ E2) as (-> & _). cbn [reaction] in C0.
      eapply IHl; [intros; apply SUB; now right| |exact C0]. eapply IH; [|exact P2|exact E2].
      intros k' m a b d Q Pa Ea. eapply PR; [|exact Pa|exact Ea]. eapply reach_child; eauto. apply SUB. now left. }
    destruct (CH _ _ _ (fun _ _ I => I) P1 C) as (st2 & -> & P2). cbn [exit cbind] in H. now injection H as <- <-.
  Qed.
End Calls.

(** * The validator *)

Definition validator_skips (k : kind) (n : anode) : bool :=
  match k with KPragmaMacrodef => true | KTerm => match all "grammar" n with [] => false | _ => true end | _ => false end.
Definition grows (v v' : validator) : Prop := v_known v' = v_known v /\ exists l, v_err v' = v_err v ++ l.
Lemma grows_refl : forall v, grows v v.
Proof. intro v. split; auto. exists []. now rewrite app_nil_r. Qed.
Lemma grows_trans : forall a b c, grows a b -> grows b c -> grows a c.
Proof. intros a b c [K1 [l1 E1]] [K2 [l2 E2]]. split; [congruence|]. exists (l1 ++ l2). now rewrite E2, E1, app_assoc. Qed.
Lemma grows_report : forall e v, grows v (report e v).
Proof. intros e v. split; auto. exists [e]. reflexivity. Qed.
Lemma grows_if : forall (b : bool) v w, grows v w -> grows v (if b then w else v).
Proof. intros [] v w H; auto. apply grows_refl. Qed.
Lemma grows_if' : forall (b : bool) v w, grows v w -> grows v (if b then v else w).
Proof. intros [] v w H; auto. apply grows_refl. Qed.

Lemma name_clashes_grows : forall ts names v v', name_clashes ts names v = COk v' -> grows v v'.
Proof.
  induction ts as [|t ts IH]; simpl; intros names v v' H; [injection H as <-; apply grows_refl|].
  destruct (one "named" t) as [m|]; [|eauto]. apply cbind_inv in H as (x & X & H). destruct (String.eqb x ""); [eauto|].
  apply IH in H. eapply grows_trans; [|exact H]. apply grows_if, grows_report.
Qed.
Lemma macro_args_grows : forall l v v', macro_args l v = COk v' -> exists e, v_err v' = v_err v ++ e.
Proof.
  induction l as [|a l IH]; simpl; intros v v' H; [injection H as <-; exists []; now rewrite app_nil_r|].
  apply cbind_inv in H as (x & X & H). apply IH in H as [e E]. destruct (mem x (v_known v)); simpl in E; [|eauto].
  exists (NameClashesWithRule :: e). now rewrite E, <- app_assoc.
Qed.
Lemma validator_calls : forall E ms k n v s v', validator_ops E ms k n v = COk (s, v') ->
  grows v v' /\ s = if (negb (leaf_kind k) && validator_skips k n)%bool then Some NodeExiter else None.
Proof.
  intros E ms k n v s v' H. destruct k; simpl in H; try (injection H as <- <-; split; [apply grows_refl|reflexivity]).
  - unfold validate_atom in H. destruct (one "IDENT" n).
    + apply cbind_inv in H as (x & X & H). injection H as <- <-. split; auto. apply grows_if', grows_if', grows_report.
    + destruct (one "RE" n).
      * apply cbind_inv in H as (x & X & H). injection H as <- <-. split; auto. apply grows_if', grows_report.
      * injection H as <- <-. split; auto. apply grows_refl.
  - apply cbind_inv in H as (x & X & H). injection H as <- <-. split; auto. destruct (lookup x ms); [|apply grows_report].
    apply grows_if', grows_report.
  - unfold validate_named in H. destruct (one "IDENT" n).
    + apply cbind_inv in H as (x & X & H). injection H as <- <-. split; auto. apply grows_if, grows_report.
    + injection H as <- <-. split; auto. apply grows_refl.
  - apply cbind_inv in H as (w & W & H). injection H as <- <-. split; auto. split; auto. exact (macro_args_grows _ _ _ W).
  - apply cbind_inv in H as (x & X & H). destruct (Z.eqb x 1).
    + apply cbind_inv in H as (mn & MN & H). apply cbind_inv in H as (mx & MX & H). injection H as <- <-. split; auto. apply grows_if, grows_report.
    + injection H as <- <-. split; auto. apply grows_refl.
  - unfold validate_term in H. cbn [leaf_kind negb andb validator_skips]. destruct (all "grammar" n).
    + apply cbind_inv in H as (op & O & H). destruct (String.eqb op "").
      * apply cbind_inv in H as (w & W & H). injection H as <- <-. split; auto. eapply name_clashes_grows; eauto.
      * injection H as <- <-. split; auto. apply grows_refl.
    + injection H as <- <-. split; auto. apply grows_refl.
Qed.

(** A run without errors calls every callback without one. *)
Lemma run_validator_clean : forall E ms fuel n K v, run_validator E ms fuel n (mkValidator K []) = COk v -> v_err v = [] ->
  forall k m, reach validator_skips KGrammar n k m ->
  exists s, validator_ops E ms k m (mkValidator K []) = COk (s, mkValidator K []).
Proof.
  intros E ms fuel n K v H NE k m Q. unfold run_validator in H. apply cbind_inv in H as ((s & v') & W & H). injection H as <-.
  destruct (walk_calls _ _ _ grows_refl grows_trans (validator_calls E ms) _ _ _ _ _ _ W) as (_ & _ & C).
  destruct (C _ _ Q) as (v1 & s1 & v2 & [K1 [l1 E1]] & O & [K3 [l3 E3]]).
  destruct (validator_calls _ _ _ _ _ _ _ O) as [[K2 [l2 E2]] _]. simpl in K1, E1.
  rewrite NE in E3. symmetry in E3. apply app_eq_nil in E3 as [E3 _]. rewrite E3 in E2. symmetry in E2. apply app_eq_nil in E2 as [E2 _].
  destruct v1 as [K1' e1], v2 as [K2' e2]. simpl in *. subst. exists s1. exact O.
Qed.

(** * The definitions *)

Definition defined_skips (k : kind) (n : anode) : bool := match k with KProd | KPragmaMacrodef => true | _ => false end.
Definition defined_ops (k : kind) (n : anode) (st : defined) : cres (option stopper * defined) :=
  match k with
  | KProd => cbind (string_of (one "IDENT" n)) (fun x => COk (Some NodeExiter, add_rule x st))
  | KPragmaMacrodef => cbind (string_of (one "name" n)) (fun x =>
      let st := add_rule x st in
      COk (Some NodeExiter, mkDefined (d_dupes st) (d_names st) (aset x n (d_macros st))))
  | _ => COk (None, st)
  end.
Lemma defined_calls : forall k n st s st', defined_ops k n st = COk (s, st') ->
  True /\ s = if (negb (leaf_kind k) && defined_skips k n)%bool then Some NodeExiter else None.
Proof.
  intros k n st s st' H. split; auto. destruct k; simpl in H; try (injection H as <- <-; reflexivity).
  - apply cbind_inv in H as (x & X & H). injection H as <- <-. reflexivity.
  - apply cbind_inv in H as (x & X & H). injection H as <- <-. reflexivity.
Qed.

Lemma visited_in : forall k n name many k', In (name, many, k') (fields k) -> forall m,
  (if many : bool then In m (all name n) else one name n = Some m) -> In (k', m) (visited k n).
Proof.
  intros k n name many k' F m H. unfold visited. apply in_flat_map. exists (name, many, k'). split; auto.
  apply in_map_iff. exists m. split; auto. destruct many; auto. rewrite H. now left.
Qed.
Lemma visited_inv : forall k n k' m, In (k', m) (visited k n) -> exists name many, In (name, many, k') (fields k) /\
  (if many : bool then In m (all name n) else one name n = Some m).
Proof.
  intros k n k' m H. unfold visited in H. apply in_flat_map in H as (((name & many) & k2) & F & H).
  apply in_map_iff in H as (m' & E & H). injection E as <- <-. exists name, many. split; auto. destruct many; auto.
  destruct (one name n) as [x|] eqn:O; simpl in H; [|tauto]. destruct H as [->|[]]. auto.
Qed.

(** The productions and macros the walk reaches. *)
Lemma reach_defined : forall n k m, plain_tree n -> reach defined_skips KGrammar n k m ->
  k <> KPragmaMacrodef /\ (k = KProd -> exists stmt, In stmt (all "stmt" n) /\ one "prod" stmt = Some m).
Proof.
  intros n k m P Q.
  inversion Q as [|? ? k1 n1 ? ? _ _ I1 Q1]; subst; [split; discriminate|].
  apply visited_inv in I1 as (name & many & F & V). simpl in F. destruct F as [F|[]]. injection F as <- <- <-. simpl in V.
  inversion Q1 as [|? ? k2 n2 ? ? _ _ I2 Q2]; subst; [split; discriminate|].
  apply visited_inv in I2 as (name & many & F & V2). simpl in F. destruct F as [F|[F|[F|[]]]]; injection F as <- <- <-; simpl in V2.
  - inversion Q2; subst; [split; discriminate|discriminate].
  - (* pragma *)
    inversion Q2 as [|? ? k3 n3 ? ? _ _ I3 Q3]; subst; [split; discriminate|].
    apply visited_inv in I3 as (name & many & F & V3). simpl in F. destruct F as [F|[F|[]]]; injection F as <- <- <-; simpl in V3.
    + inversion Q3 as [|? ? k4 n4 ? ? _ _ I4 Q4]; subst; [split; discriminate|].
      apply visited_inv in I4 as (name & many & F & V4). simpl in F. destruct F as [F|[]]; injection F as <- <- <-; simpl in V4.
      inversion Q4 as [|? ? k5 n5 ? ? _ _ I5 Q5]; subst; [split; discriminate|].
      apply visited_inv in I5 as (name & many & F & V5). destruct F.
    + exfalso. assert (B : below n n2) by (eapply below_trans; [eapply all_below_tree; exact V|]; eapply all_below_tree, one_all; exact V2).
      destruct (plain_all _ (plain_below _ _ P B)) as [_ M]. apply one_all in V3. rewrite M in V3. destruct V3.
  - inversion Q2 as [|? ? k3 n3 ? ? _ SK I3 Q3]; subst; [|discriminate]. split; [discriminate|]. intros _. eauto.
Qed.

Lemma defined_names : forall fuel n d, plain_tree n -> find_defined_rules fuel n = COk d ->
  d_macros d = [] /\ forall x, In x (d_names d) -> exists p, defines n x p.
Proof.
  intros fuel n d P H. unfold find_defined_rules in H. apply cbind_inv in H as ((s & d') & W & H). injection H as <-.
  refine (walk_invariant defined_ops defined_skips (fun _ _ => True) _ _ defined_calls
    (fun d => d_macros d = [] /\ forall x, In x (d_names d) -> exists p, defines n x p) fuel KGrammar n _ s d' _ _ W); auto.
  - intros k m st s1 st' Q [M N] C. destruct (reach_defined _ _ _ P Q) as [NM IP]. destruct k; simpl in C; try (injection C as <- <-; split; auto; fail); [congruence|].
    apply cbind_inv in C as (x & X & C). injection C as <- <-. split; auto. simpl. intros y Y.
    assert (Y' : y = x \/ In y (d_names st)).
    { unfold with_ in Y. destruct (mem x (d_names st)); auto. apply in_app_or in Y as [Y|[Y|[]]]; auto. }
    destruct Y' as [->|Y']; [|auto]. destruct (IP eq_refl) as (stmt & S1 & S2). exists m, stmt. auto.
  - split; auto. intros ? [].
Qed.

(** * The builder *)

(** The name [x] is referred to from the node. *)
Definition refers (k : kind) (n : anode) (x : string) : Prop :=
  exists a id, reach validator_skips k n KAtom a /\ one "IDENT" a = Some id /\ string_of (Some id) = COk x.
Lemma refers_child : forall k n name many k' m x, leaf_kind k = false -> validator_skips k n = false -> In (name, many, k') (fields k) ->
  (if many : bool then In m (all name n) else one name n = Some m) -> refers k' m x -> refers k n x.
Proof.
  intros k n name many k' m x L S F V (a & id & Q & O & X). exists a, id. split; auto. eapply reach_child; eauto. eapply visited_in; eauto.
Qed.
Lemma plain_child : forall name n m, plain_tree n -> In m (all name n) -> plain_tree m.
Proof. intros name n m P I. eapply plain_below; eauto. eapply all_below_tree; eauto. Qed.
Lemma plain_one : forall name n m, plain_tree n -> one name n = Some m -> plain_tree m.
Proof. intros name n m P I. eapply plain_child; eauto. eapply one_all; eauto. Qed.
Lemma plain_skips : forall n, plain_tree n -> validator_skips KTerm n = false.
Proof. intros n P. simpl. now destruct (plain_all _ P) as [-> _]. Qed.
Lemma ctraverse_In : forall A B (f : A -> cres B) l l', ctraverse f l = COk l' -> forall y, In y l' -> exists x, In x l /\ f x = COk y.
Proof.
  induction l as [|a l IH]; simpl; intros l' H y I; [injection H as <-; destruct I|].
  apply cbind_inv in H as (b & B1 & H). apply cbind_inv in H as (bs & B2 & H). injection H as <-.
  destruct I as [->|I]; [eauto|]. destruct (IH _ B2 _ I) as (x & X1 & X2). eauto.
Qed.
Lemma deref_inv : forall A (o : option A) x, deref o = COk x -> o = Some x.
Proof. intros A [y|] x H; [now injection H as ->|discriminate]. Qed.

Section Mentions.
  Variable rec : anode -> cres term.
  Hypothesis rec_refers : forall t u x, plain_tree t -> rec t = COk u -> mentions x u -> refers KTerm t x.

  Lemma which_has : forall b names x, which b names = x -> x <> ""%string -> has x b = true.
  Proof.
    induction names as [|y names IH]; simpl; intros x H NE; [congruence|]. destruct (has y b) eqn:E; [congruence|auto].
  Qed.
  Lemma build_atom_refers : forall a u x, plain_tree a -> build_atom [] rec a = COk u -> mentions x u -> refers KAtom a x.
  Proof.
    intros a u x P H M. unfold build_atom in H. destruct a as [b| |]; try discriminate. cbv zeta in H.
    set (w := which b atom_kinds) in *. clearbody w.
    destruct (String.eqb w "IDENT") eqn:E1.
    { apply String.eqb_eq in E1. subst w. apply cbind_inv in H as (s & S & H). injection H as <-. inversion M; subst.
      apply cbind_inv in S as (id & D & S). apply deref_inv in D. exists (ABranch b), id. split; [constructor|]. split.
      - unfold one, first_of. rewrite D. reflexivity.
      - unfold string_of. rewrite S. reflexivity. }
    destruct (String.eqb w "STR"). { apply cbind_inv in H as (s & S & H). apply cbind_inv in H as (v & V & H). injection H as <-. inversion M. }
    destruct (String.eqb w "RE"). { apply cbind_inv in H as (s & S & H). apply cbind_inv in H as (v & V & H). injection H as <-. inversion M. }
    destruct (String.eqb w "REF").
    { apply cbind_inv in H as (r & R & H). apply cbind_inv in H as (i & I & H). apply cbind_inv in H as (d & D & H).
      destruct (String.eqb d ""); [injection H as <-; inversion M|]. apply cbind_inv in H as (v & V & H). injection H as <-. inversion M. }
    destruct (String.eqb w "ExtRef"). { apply cbind_inv in H as (r & R & H). apply cbind_inv in H as (i & I & H). injection H as <-. inversion M. }
    destruct (String.eqb w "lookahead").
    { apply cbind_inv in H as (t & T & H). apply deref_inv in T. apply cbind_inv in H as (v & V & H). injection H as <-. inversion M; subst.
      eapply (refers_child KAtom _ "lookahead" false KTerm t); simpl; auto 10. eapply rec_refers; eauto. eapply plain_one; eauto. }
    destruct (String.eqb w "term").
    { apply cbind_inv in H as (t & T & H). apply deref_inv in T.
      eapply (refers_child KAtom _ "term" false KTerm t); simpl; auto 12. eapply rec_refers; eauto. eapply plain_one; eauto. }
    destruct (String.eqb w "macrocall").
    { apply cbind_inv in H as (t & T & H). unfold expand_macro in H. apply cbind_inv in H as (y & Y & H). simpl in H. discriminate. }
    injection H as <-. inversion M as [|? X| | | | | | | |]; subst. inversion X.
  Qed.
  Lemma build_named_refers : forall n u x, plain_tree n -> build_named [] rec n = COk u -> mentions x u -> refers KNamed n x.
  Proof.
    intros n u x P H M. unfold build_named in H. apply cbind_inv in H as (a & A & H). apply deref_inv in A.
    apply cbind_inv in H as (at_ & B & H). apply cbind_inv in H as (id & I & H). injection H as <-.
    eapply (refers_child KNamed _ "atom" false KAtom a); simpl; auto. eapply build_atom_refers; eauto; [eapply plain_one; eauto|].
    destruct (String.eqb id ""); auto. now inversion M.
  Qed.
  Lemma build_quant_refers : forall q t u x, plain_tree q -> build_quant [] rec q t = COk u -> mentions x u -> mentions x t \/ refers KQuant q x.
  Proof.
    intros q t u x P H M. unfold build_quant in H. apply cbind_inv in H as (c & C & H).
    destruct (Z.eqb c 0).
    { apply cbind_inv in H as (op & O & H). destruct (String.eqb op "*"); [injection H as <-; inversion M; auto|].
      destruct (String.eqb op "?"); [injection H as <-; inversion M; auto|]. destruct (String.eqb op "+"); [injection H as <-; inversion M; auto|discriminate]. }
    destruct (Z.eqb c 1).
    { apply cbind_inv in H as (mn & MN & H). apply cbind_inv in H as (mx & MX & H). injection H as <-. inversion M; auto. }
    destruct (Z.eqb c 2); [|discriminate].
    apply cbind_inv in H as (op & O & H). apply cbind_inv in H as (a & A & H). apply cbind_inv in H as (n & N & H). apply deref_inv in N.
    apply cbind_inv in H as (sep & S & H). apply cbind_inv in H as (l & L & H). apply cbind_inv in H as (r & R & H). injection H as <-.
    inversion M as [| | | |? ? ? ? ? X| | | | |]; subst. destruct X as [X|X]; auto. right.
    eapply (refers_child KQuant _ "named" false KNamed n); simpl; auto. eapply build_named_refers; eauto. eapply plain_one; eauto.
  Qed.
End Mentions.

Lemma build_term_refers : forall fuel t u x, plain_tree t -> build_term [] fuel t = COk u -> mentions x u -> refers KTerm t x.
Proof.
  induction fuel as [|fuel IH]; intros t u x P H M; [discriminate|]. cbn [build_term] in H.
  pose proof (plain_skips _ P) as SK. destruct (plain_all _ P) as [NG _].
  destruct (all "term" t) as [|t0 ts0] eqn:TS.
  - apply cbind_inv in H as (n & N & H). apply deref_inv in N. apply cbind_inv in H as (v & V & H).
    assert (Q : forall qs acc u, (forall q, In q qs -> In q (all "quant" t)) ->
      (forall v, acc = COk v -> mentions x v -> refers KTerm t x) ->
      fold_left (fun acc q => cbind acc (build_quant [] (build_term [] fuel) q)) qs acc = COk u -> mentions x u -> refers KTerm t x).
    { clear u v H V M. induction qs as [|q qs IHq]; simpl; intros acc u SUB A H M; [eauto|].
      eapply IHq; [| |exact H|exact M]; [auto|]. intros v V Mv. apply cbind_inv in V as (w & -> & V).
      destruct (build_quant_refers (build_term [] fuel) (fun t u x => IH t u x) q w v x) as [X|X]; auto.
      - eapply plain_child; eauto.
      - eauto.
      - eapply (refers_child KTerm _ "quant" true KQuant q); simpl; auto 10. }
    eapply Q; [| |exact H|exact M].
    + intros q I. now apply in_rev.
    + intros w W Mw. injection W as <-. eapply (refers_child KTerm _ "named" false KNamed n); simpl; auto 10.
      eapply build_named_refers; eauto. eapply plain_one; eauto.
  - rewrite <- TS in H. apply cbind_inv in H as (ts & T & H). apply cbind_inv in H as (op & O & H).
    assert (Q : Exists (mentions x) ts -> refers KTerm t x).
    { intro X. apply Exists_exists in X as (v & I & X). destruct (ctraverse_In _ _ _ _ _ T _ I) as (t1 & I1 & B1).
      eapply (refers_child KTerm _ "term" true KTerm t1); simpl; auto 10. eapply IH; eauto. eapply plain_child; eauto. }
    destruct (String.eqb op "|"); [injection H as <-; inversion M; auto|].
    destruct (String.eqb op ">"); [injection H as <-; inversion M; auto|].
    rewrite NG in H. injection H as <-. apply Q. destruct ts as [|y [|z ts]]; [now inversion M|now left|now inversion M].
Qed.

Lemma build_grammar_rules : forall rec node g, build_grammar rec node = COk g -> forall x,
  (In x (keys g) <-> exists p, defines node x p) /\
  (forall t, lookup x g = Some t -> exists p, defines node x p /\ build_prod rec p = COk t).
Proof.
  intros rec node g H. unfold build_grammar in H.
  assert (Q : forall l acc g, fold_left (fun acc stmt =>
      cbind acc (fun g =>
      match one "prod" stmt with
      | None => COk g
      | Some prod =>
          cbind (build_prod rec prod) (fun t =>
          cbind (string_of (one "IDENT" prod)) (fun name => COk (aset name t g)))
      end)) l acc = COk g -> exists g0, acc = COk g0 /\ forall x,
    (In x (keys g) <-> In x (keys g0) \/ exists stmt p, In stmt l /\ one "prod" stmt = Some p /\ string_of (one "IDENT" p) = COk x) /\
    (forall t, lookup x g = Some t -> lookup x g0 = Some t \/
       exists stmt p, In stmt l /\ one "prod" stmt = Some p /\ string_of (one "IDENT" p) = COk x /\ build_prod rec p = COk t)).
  { clear g H. induction l as [|stmt l IH]; simpl; intros acc g H.
    - exists g. split; auto. intros x. split; [|auto]. split; [auto|]. intros [I|(? & ? & [] & _)]; auto.
    - apply IH in H as (g1 & A & H). apply cbind_inv in A as (g0 & -> & A). exists g0. split; auto. intro x.
      destruct (H x) as [K L]. destruct (one "prod" stmt) as [p|] eqn:O.
      + apply cbind_inv in A as (t & T & A). apply cbind_inv in A as (name & N & A). injection A as <-. split.
        * rewrite K, keys_aset. split.
          -- intros [[->|I]|(s & q & I & ?)]; [right; exists stmt, p|auto|right; exists s, q]; tauto.
          -- intros [I|(s & q & [<-|I] & O' & N')]; [auto| |right; eauto]. left. left. rewrite O in O'. injection O' as <-. rewrite N in N'. now injection N' as ->.
        * intros t' T'. apply L in T' as [T'|(s & q & I & X)]; [|right; exists s, q; tauto].
          destruct (string_dec name x) as [->|NE].
          -- rewrite lookup_aset_eq in T'. injection T' as <-. right. exists stmt, p. auto.
          -- rewrite lookup_aset_neq in T' by auto. auto.
      + injection A as <-. split.
        * rewrite K. split; intros [I|(s & q & I & X)]; auto; [right; exists s, q; tauto|].
          destruct I as [<-|I]; [destruct X; congruence|right; exists s, q; tauto].
        * intros t' T'. apply L in T' as [T'|(s & q & I & X)]; auto. right. exists s, q; tauto. }
  destruct (Q _ _ _ H) as (g0 & E & R). injection E as <-. intro x. destruct (R x) as [K L]. split.
  - rewrite K. split.
    + intros [[]|(s & p & I & O & N)]. exists p, s. auto.
    + intros (p & s & I & O & N). right. exists s, p. auto.
  - intros t T. apply L in T as [T|(s & p & I & O & N & B)]; [discriminate|]. exists p. split; auto. exists s. auto.
Qed.

(** Cut points mention nothing new. *)
Lemma marked_mentions : forall U x t t', marked U t t' -> mentions x t' -> mentions x t.
Proof.
  intros U x.
  assert (L : forall ts, Forall (fun t => forall t', marked U t t' -> mentions x t' -> mentions x t) ts -> forall ts',
    Forall2 (marked U) ts ts' -> Exists (mentions x) ts' -> Exists (mentions x) ts).
  { induction 1; intros ts' F E; inversion F; subst; inversion E; subst; eauto. }
  induction t using term_ind'; intros t' R M; inversion R; subst; auto; try (inversion M; subst; constructor; eauto; fail).
  - inversion M as [| | | | | | | |? X|]; subst. inversion X.
  - inversion M as [| | | |? ? ? ? ? X| | | | |]; subst. constructor. destruct X; eauto.
  - inversion M as [| | | | | | | | |? ? X]; subst. constructor. destruct X as [X|X]; [left; eauto|right].
    clear R M. match goal with F : Forall2 _ g g' |- _ => revert H X; induction F as [|[k v] [k' v'] a b [F1 F2] F IH]; intros H X; inversion X; subst; inversion H; subst end; [left|right]; eauto.
Qed.

(** * References of accepted texts *)

Lemma collect_macros_plain : forall fuel n ms, plain_tree n -> collect_macros fuel n = COk ms -> ms = [].
Proof.
  intros fuel n ms P H. unfold collect_macros in H. apply cbind_inv in H as ((s & ms') & W & H). injection H as <-.
  refine (walk_invariant _ (fun _ _ => false) (fun _ _ => True) _ _ _ (fun ms => ms = []) fuel KGrammar n [] s ms' _ eq_refl W); auto.
  - intros k m st s1 st' C. split; auto. rewrite Bool.andb_false_r. destruct k; try (injection C as <- <-; reflexivity).
    apply cbind_inv in C as (x & X & C). now injection C as <- <-.
  - intros k m st s1 st' Q -> C. destruct k; try (now injection C as <- <-). exfalso.
    assert (G : forall k n k' m, reach (fun _ _ => false) k n k' m -> k' = KPragmaMacrodef -> k <> KPragmaMacrodef -> plain_tree n -> False).
    { clear. induction 1 as [|k n k1 n1 k' m L _ I Q IH]; intros E NE P; [congruence|].
      assert (P1 : plain_tree n1) by (destruct (visited_all _ _ _ _ I); eapply plain_child; eauto).
      destruct k1; try (apply IH; auto; discriminate).
      apply visited_inv in I as (name & many & F & V).
      assert (name = "macrodef"%string).
      { destruct k; simpl in F; repeat (destruct F as [F|F]; [try discriminate F; now injection F as <- <-|]); destruct F. }
      subst name. destruct (plain_all _ P) as [_ M].
      assert (X : In n1 (all "macrodef" n)) by (destruct many; auto; now apply one_all). rewrite M in X. destruct X. }
    eapply G; eauto. discriminate.
Qed.

Lemma insert_keys : forall g, keys (insert_cut_points g) = keys g.
Proof.
  intro g. pose proof (insert_marked g) as F. unfold marked_grammar in F. unfold keys.
  induction F as [|a b g1 g2 [E _] F IH]; simpl; congruence.
Qed.
Lemma insert_mentions : forall g r t x, lookup r (insert_cut_points g) = Some t -> mentions x t -> exists u, lookup r g = Some u /\ mentions x u.
Proof.
  intros g r t x. pose proof (insert_marked g) as F. unfold marked_grammar in F.
  induction F as [|[k v] [k' v'] g1 g2 [E M] F IH]; simpl in *; [discriminate|]. subst k'.
  destruct (String.eqb r k); [|auto]. intros H X. injection H as <-. exists v. split; auto. eapply marked_mentions; eauto.
Qed.

Theorem accepted_refs : forall E rt fuel n fuel' g, plain_tree n ->
  validate E rt fuel n = COk [] -> new_from_ast fuel' n = COk g ->
  forall r t x, lookup r g = Some t -> mentions x t -> x = "@"%string \/ In x (keys g).
Proof.
  intros E rt fuel n fuel' g P V B r t x L M.
  unfold new_from_ast in B. apply cbind_inv in B as (ms & C & B). apply collect_macros_plain in C; auto. subst ms.
  apply cbind_inv in B as (g0 & B & H). injection H as <-.
  destruct (insert_mentions _ _ _ _ L M) as (u & Lu & Mu). rewrite insert_keys.
  destruct (build_grammar_rules _ _ _ B r) as [_ R]. destruct (R _ Lu) as (p & (stmt & S1 & S2 & S3) & BP).
  assert (PS : plain_tree stmt) by (eapply plain_child; eauto). assert (PP : plain_tree p) by (eapply plain_one; eauto).
  assert (RP : refers KProd p x).
  { unfold build_prod in BP. apply cbind_inv in BP as (ts & T & H). injection H as <-.
    assert (X : Exists (mentions x) ts) by (destruct ts as [|y [|z ts]]; [now inversion Mu|now left|now inversion Mu]).
    apply Exists_exists in X as (v & I & X). destruct (ctraverse_In _ _ _ _ _ T _ I) as (t1 & I1 & B1).
    eapply (refers_child KProd _ "term" true KTerm t1); simpl; auto. eapply build_term_refers; eauto. eapply plain_child; eauto. }
  assert (RG : refers KGrammar n x).
  { eapply (refers_child KGrammar _ "stmt" true KStmt stmt); simpl; auto. eapply (refers_child KStmt _ "prod" false KProd p); simpl; auto. }
  destruct RG as (a & id & Q & O & X).
  unfold validate in V. apply cbind_inv in V as (d & D & V). destruct (d_dupes d); [|discriminate].
  apply cbind_inv in V as (v & RV & V). apply cbind_inv in V as (cyc & CY & V). injection V as V. apply app_eq_nil in V as [V _].
  destruct (run_validator_clean _ _ _ _ _ _ RV V _ _ Q) as (s & OP). simpl in OP. unfold validate_atom in OP. rewrite O, X in OP. cbn [cbind] in OP.
  destruct (String.eqb x "@") eqn:EX; [left; now apply String.eqb_eq|]. right.
  destruct (mem x (v_known (mkValidator (d_names d) []))) eqn:MM; [|discriminate].
  simpl in MM. apply existsb_exists in MM as (y & I & Y). apply String.eqb_eq in Y. subst y.
  destruct (defined_names _ _ _ P D) as [_ DN]. apply (build_grammar_rules _ _ _ B x). auto.
Qed.

(** * No definition is lost *)

Definition no_exit (k : kind) (n : anode) (st : defined) : cres (option stopper * defined) := COk (None, st).

Lemma pragma_defines_nothing : forall fuel n st s st', plain_tree n -> walk defined_ops no_exit fuel KPragma n st = COk (s, st') -> s = None /\ st' = st.
Proof.
  intros fuel n st s st' P W. split; [now destruct (walk_calls _ _ (fun _ _ => True) (fun _ => Logic.I) (fun _ _ _ _ _ => Logic.I) defined_calls _ _ _ _ _ _ W)|].
  refine (walk_invariant defined_ops defined_skips (fun _ _ => True) _ _ defined_calls (fun d => d = st) fuel KPragma n st s st' _ eq_refl W); auto.
  intros k m st0 s1 st1 Q -> C.
  inversion Q as [|? ? k3 n3 ? ? _ _ I3 Q3]; subst; [now injection C as <- <-|].
  apply visited_inv in I3 as (name & many & F & V3). simpl in F. destruct F as [F|[F|[]]]; injection F as <- <- <-; simpl in V3.
  - inversion Q3 as [|? ? k4 n4 ? ? _ _ I4 Q4]; subst; [now injection C as <- <-|].
    apply visited_inv in I4 as (name & many & F & V4). simpl in F. destruct F as [F|[]]; injection F as <- <- <-; simpl in V4.
    inversion Q4 as [|? ? k5 n5 ? ? _ _ I5 Q5]; subst; [now injection C as <- <-|].
    apply visited_inv in I5 as (name & many & F & V5). destruct F.
  - destruct (plain_all _ P) as [_ M]. apply one_all in V3. rewrite M in V3. destruct V3.
Qed.
Lemma stmt_defines : forall fuel n st s st', plain_tree n -> walk defined_ops no_exit fuel KStmt n st = COk (s, st') ->
  s = None /\ match one "prod" n with
              | Some p => exists x, string_of (one "IDENT" p) = COk x /\ st' = add_rule x st
              | None => st' = st
              end.
Proof.
  intros [|fuel] n st s st' P W; [discriminate|].
  split; [now destruct (walk_calls _ _ (fun _ _ => True) (fun _ => Logic.I) (fun _ _ _ _ _ => Logic.I) defined_calls _ _ _ _ _ _ W)|].
  cbn [walk] in W. cbn [defined_ops cbind leaf_kind reaction] in W. apply cbind_inv in W as (c & C & W).
  assert (ST : exists st1, walk_children (walk defined_ops no_exit fuel) (map (fun m => (KProd, m)) (of_option (one "prod" n))) st = COk st1 /\
    match st1 with inr st2 => st' = st2 | inl r => st' = snd r end).
  { unfold visited in C. cbn [fields flat_map] in C. rewrite app_nil_r in C.
    assert (SK : forall A (f : A -> kind * anode) (o : option A) rest st,
      (forall a, o = Some a -> forall s st', walk defined_ops no_exit fuel (fst (f a)) (snd (f a)) st = COk (s, st') -> s = None /\ st' = st) ->
      walk_children (walk defined_ops no_exit fuel) (map f (of_option o) ++ rest) st = COk c ->
      walk_children (walk defined_ops no_exit fuel) rest st = COk c).
    { intros A f [a|] rest st0 H X; auto. cbn [of_option map app walk_children] in X. destruct (f a) as [k m] eqn:FA.
      apply cbind_inv in X as ((s1 & st1) & W1 & X). destruct (H a eq_refl s1 st1) as [-> ->]; [now rewrite FA|]. exact X. }
    apply SK in C.
    2:{ intros m _ s1 st1 W1. cbn [fst snd] in W1. destruct fuel; [discriminate|]. cbn [walk defined_ops cbind leaf_kind] in W1. now injection W1 as <- <-. }
    apply SK in C.
    2:{ intros m O s1 st1 W1. cbn [fst snd] in W1. eapply pragma_defines_nothing; [|exact W1]. eapply plain_one; eauto. }
    exists c. split; auto. destruct c as [[s1 st1]|st1]; cbn in W; injection W as <- <-; auto. }
  destruct ST as (st1 & C1 & E1). destruct (one "prod" n) as [p|]; cbn [of_option map walk_children] in C1.
  - apply cbind_inv in C1 as ((s2 & st2) & W2 & C1). destruct fuel as [|fuel]; [discriminate|]. cbn [walk] in W2.
    apply cbind_inv in W2 as ((s3 & st3) & D & W2). cbn [defined_ops] in D. apply cbind_inv in D as (x & X & D). injection D as <- <-.
    cbn in W2. injection W2 as <- <-. cbn in C1. injection C1 as <-. subst st'. eauto.
  - injection C1 as <-. auto.
Qed.

Lemma with_mem : forall x l, mem x l = true <-> In x l.
Proof.
  intros x l. unfold mem. rewrite existsb_exists. split; [intros (y & I & E); apply String.eqb_eq in E; now subst|].
  intro I. exists x. split; auto. apply String.eqb_refl.
Qed.
Lemma NoDup_snoc : forall A (x : A) l, NoDup l -> ~ In x l -> NoDup (l ++ [x]).
Proof. intros A x l N I. apply (Permutation_NoDup (l := x :: l)); [apply Permutation_cons_append|constructor; auto]. Qed.
(** Names are collected without repetition unless there are duplicates. *)
Lemma add_rules_names : forall xs st, d_dupes (fold_left (fun st x => add_rule x st) xs st) = [] ->
  d_dupes st = [] /\ d_names (fold_left (fun st x => add_rule x st) xs st) = d_names st ++ xs /\ (NoDup (d_names st) -> NoDup (d_names st ++ xs)).
Proof.
  induction xs as [|x xs IH]; simpl; intros st H; [rewrite app_nil_r; auto|].
  destruct (IH _ H) as (A & B & C).
  assert (M : mem x (d_names st) = false /\ d_dupes st = []).
  { simpl in A. destruct (mem x (d_names st)); [destruct (d_dupes st); discriminate|auto]. }
  destruct M as [M D]. assert (DN : d_names (add_rule x st) = d_names st ++ [x]) by (unfold add_rule, with_; simpl; now rewrite M).
  rewrite DN in B, C. rewrite <- app_assoc in B, C. split; auto. split; auto.
  intro N. apply C. apply NoDup_snoc; auto. intro J. apply with_mem in J. congruence.
Qed.

Lemma stmts_define : forall fuel ss st c, Forall plain_tree ss ->
  walk_children (walk defined_ops no_exit fuel) (map (fun m => (KStmt, m)) ss) st = COk c ->
  exists xs, Forall2 (fun p x => string_of (one "IDENT" p) = COk x) (flat_map (fun s => of_option (one "prod" s)) ss) xs /\
    c = inr (fold_left (fun st x => add_rule x st) xs st).
Proof.
  induction ss as [|s ss IH]; intros st c P H; cbn [map walk_children] in H.
  - injection H as <-. exists []. split; constructor.
  - inversion P; subst. apply cbind_inv in H as ((s1 & st1) & W & H). apply stmt_defines in W as [-> W]; auto. cbn [reaction] in H.
    apply IH in H as (xs & F & ->); auto. cbn [flat_map]. destruct (one "prod" s) as [p|]; cbn [of_option app].
    + destruct W as (x & X & ->). exists (x :: xs). split; auto.
    + subst st1. exists xs. auto.
Qed.
Lemma defined_list : forall fuel n d, plain_tree n -> find_defined_rules fuel n = COk d -> d_dupes d = [] ->
  NoDup (d_names d) /\ Forall2 (fun p x => string_of (one "IDENT" p) = COk x) (productions n) (d_names d).
Proof.
  intros fuel n d P H E. unfold find_defined_rules in H. apply cbind_inv in H as ((s & d') & W & H). injection H as <-.
  destruct fuel as [|fuel]; [discriminate|]. cbn [walk cbind leaf_kind reaction] in W. apply cbind_inv in W as (c & C & W).
  unfold visited in C. cbn [fields flat_map] in C. rewrite app_nil_r in C.
  assert (PS : Forall plain_tree (all "stmt" n)) by (apply Forall_forall; intros s1 J; eapply plain_child; eauto).
  destruct (stmts_define fuel (all "stmt" n) (mkDefined [] [] []) c PS C) as (xs & F & ->).
  cbn in W. injection W as <- <-. destruct (add_rules_names _ _ E) as (_ & B & D). rewrite B. split; [apply D; constructor|exact F].
Qed.
Lemma build_grammar_list : forall rec node g xs, build_grammar rec node = COk g -> NoDup xs ->
  Forall2 (fun p x => string_of (one "IDENT" p) = COk x) (productions node) xs -> keys g = xs.
Proof.
  intros rec node g xs H N F. unfold build_grammar in H. unfold productions in F.
  assert (Q : forall l acc g xs, fold_left (fun acc stmt =>
      cbind acc (fun g =>
      match one "prod" stmt with
      | None => COk g
      | Some prod =>
          cbind (build_prod rec prod) (fun t =>
          cbind (string_of (one "IDENT" prod)) (fun name => COk (aset name t g)))
      end)) l acc = COk g -> Forall2 (fun p x => string_of (one "IDENT" p) = COk x) (flat_map (fun s => of_option (one "prod" s)) l) xs ->
      exists g0, acc = COk g0 /\ (NoDup (keys g0 ++ xs) -> keys g = keys g0 ++ xs)).
  { clear. induction l as [|stmt l IH]; simpl; intros acc g xs H F.
    - inversion F; subst. exists g. rewrite app_nil_r. auto.
    - destruct (one "prod" stmt) as [p|]; cbn [of_option app] in F.
      + inversion F as [|? x ? xs' X F']; subst. destruct (IH _ _ _ H F') as (g1 & A & K). apply cbind_inv in A as (g0 & -> & A).
        apply cbind_inv in A as (t & T & A). rewrite X in A. cbn [cbind] in A. injection A as <-. exists g0. split; auto. intro N.
        assert (NI : ~ In x (keys g0)).
        { apply NoDup_remove_2 in N. intro J. apply N. apply in_or_app. auto. }
        assert (KA : keys (aset x t g0) = keys g0 ++ [x]).
        { clear - NI. induction g0 as [|[k v] g0 IH]; simpl; auto. destruct (String.eqb x k) eqn:E; [apply String.eqb_eq in E; subst; exfalso; apply NI; now left|].
          simpl. f_equal. apply IH. intro J. apply NI. now right. }
        rewrite KA in K. rewrite <- app_assoc in K. auto.
      + destruct (IH _ _ _ H F) as (g1 & A & K). apply cbind_inv in A as (g0 & -> & A). injection A as <-. eauto. }
  destruct (Q _ _ _ _ H F) as (g0 & E & K). injection E as <-. auto.
Qed.
Theorem accepted_definitions : forall E rt fuel n fuel' g, plain_tree n ->
  validate E rt fuel n = COk [] -> new_from_ast fuel' n = COk g ->
  NoDup (keys g) /\ Forall2 (fun p x => string_of (one "IDENT" p) = COk x) (productions n) (keys g).
Proof.
  intros E rt fuel n fuel' g P V B.
  unfold new_from_ast in B. apply cbind_inv in B as (ms & C & B). apply collect_macros_plain in C; auto. subst ms.
  apply cbind_inv in B as (g0 & B & H). injection H as <-. rewrite insert_keys.
  unfold validate in V. apply cbind_inv in V as (d & D & V). destruct (d_dupes d) eqn:DD; [|discriminate].
  destruct (defined_list _ _ _ P D DD) as [N F]. rewrite (build_grammar_list _ _ _ _ B N F). auto.
Qed.
