(** Proofs about the walker. *)
From Verif Require Import Base Scanner Syntax Resolve Ast WbnfAst WbnfGrammar Walker WalkerSpec AstProofs.

Lemma max_in : forall l x, In x l -> x <= fold_right Nat.max 0 l.
Proof. induction l as [|y l IH]; intros x H; [contradiction|]. destruct H as [->|H]; simpl; [lia|]. apply IH in H. lia. Qed.

Lemma all_below : forall name n m, In m (all name n) -> height m < height n.
Proof.
  intros name n m H. destruct n as [b| |]; unfold all, all_of, node_one, node_many in H; try contradiction.
  unfold get_one, get_many in H. cbn [height]. apply Nat.lt_succ_r.
  destruct (lookup name b) as [c|] eqn:E; [|contradiction]. apply lookup_In in E.
  etransitivity; [|apply max_in, in_map_iff; exists (name, c); split; [reflexivity|exact E]]. cbn [snd].
  destruct c as [x|xs].
  - destruct H as [<-|[]]. auto.
  - apply max_in, in_map_iff. eauto.
Qed.
Lemma one_all : forall name n m, one name n = Some m -> In m (all name n).
Proof.
  intros name n m H. unfold one, all, first_of, all_of in *.
  destruct (node_one n name); [injection H as <-; now left|].
  destruct (node_many n name); [discriminate|]. injection H as <-. now left.
Qed.
Lemma visited_below : forall k n k' m, In (k', m) (visited k n) -> height m < height n.
Proof.
  intros k n k' m H. unfold visited in H. apply in_flat_map in H as [[[name many] k2] [_ H]].
  apply in_map_iff in H as [x [E H]]. injection E as -> ->. destruct many.
  - eapply all_below; eauto.
  - destruct (one name n) as [y|] eqn:E; [|contradiction]. destruct H as [<-|[]].
    eapply all_below, one_all; eauto.
Qed.

(** The tables of the walker are what the grammar says. *)
Lemma fields_said : forall k, flat_map (fun '(name, many, r) => map (fun k' => (name, many, k')) (kind_of_rule r)) (children_of k) = fields k.
Proof. destruct k; vm_compute; reflexivity. Qed.
Lemma leaf_token : forall k, leaf_kind k = token_kind k.
Proof. destruct k; vm_compute; reflexivity. Qed.
Lemma all_labelled : forall name n, all name n = labelled name n.
Proof.
  intros name n. unfold all, all_of, labelled. destruct n as [b| |]; cbn [node_one node_many]; auto. unfold get_one, get_many.
  destruct (lookup name b) as [[m|ms]|]; auto.
Qed.
Lemma one_labelled : forall name n, of_option (one name n) = firstn 1 (labelled name n).
Proof.
  intros name n. unfold one, first_of, labelled. destruct n as [b| |]; cbn [node_one node_many]; auto. unfold get_one, get_many.
  destruct (lookup name b) as [[m|[|m ms]]|]; auto.
Qed.
Lemma expected_visited : forall k n, expected k n = visited k n.
Proof.
  intros k n. unfold expected, visited. rewrite <- fields_said. generalize (children_of k). induction l as [|[[name many] r] l IH]; [reflexivity|].
  cbn [flat_map]. rewrite flat_map_app, IH. f_equal. induction (kind_of_rule r) as [|k' ks IHk]; [reflexivity|]. cbn [map flat_map]. rewrite IHk. f_equal.
  f_equal. destruct many; [now rewrite all_labelled|now rewrite one_labelled].
Qed.

Section Tour.
  Context {St : Type}.
  Variables (stop : kind -> anode -> bool) (act : St -> event -> St).

  (** Callbacks that record every call and ask to leave the nodes in [stop]. *)
  Definition entering (k : kind) (n : anode) (st : St) : cres (option stopper * St) :=
    COk (if (negb (token_kind k) && stop k n)%bool then Some NodeExiter else None, act st (Enter k n)).
  Definition leaving (k : kind) (n : anode) (st : St) : cres (option stopper * St) :=
    COk (None, act st (Exit k n)).

  Lemma walk_tour : forall fuel k n st, height n < fuel ->
    exists evs, tour stop k n evs /\ walk entering leaving fuel k n st = COk (None, fold_left act evs st).
  Proof.
    induction fuel as [|fuel IH]; intros k n st L; [lia|].
    cbn [walk]. unfold entering at 1. rewrite <- leaf_token. cbn [cbind].
    destruct (leaf_kind k) eqn:LK.
    - cbn [negb andb]. exists [Enter k n]. split; [constructor; now rewrite <- leaf_token|reflexivity].
    - cbn [negb andb]. destruct (stop k n) eqn:SK.
      + exists [Enter k n]. split; [apply tour_stop; auto; now rewrite <- leaf_token|reflexivity].
      + cbn [reaction].
        assert (Q : forall l st, (forall k' m, In (k', m) l -> height m < fuel) ->
          exists evs, tours stop l evs /\ walk_children (walk entering leaving fuel) l st = COk (inr (fold_left act evs st))).
        { induction l as [|[k' m] l IHl]; intros st0 B.
          - exists []. split; [constructor|reflexivity].
          - destruct (IH k' m st0) as [evs [T W]]; [apply (B k'); now left|].
            destruct (IHl (fold_left act evs st0)) as [evs' [T' W']]; [intros; eapply B; right; eauto|].
            exists (evs ++ evs'). split; [now constructor|]. cbn [walk_children]. rewrite W. cbn [cbind reaction].
            now rewrite W', fold_left_app. }
        destruct (Q (visited k n) (act st (Enter k n))) as [evs [T W]].
        { intros k' m H. apply visited_below in H. lia. }
        exists (Enter k n :: evs ++ [Exit k n]). split; [apply tour_node; auto; [now rewrite <- leaf_token|now rewrite expected_visited]|].
        rewrite W. cbn [cbind]. unfold leaving. cbn [cbind]. f_equal. f_equal.
        simpl. now rewrite fold_left_app.
  Qed.
End Tour.

Scheme tour_mut := Induction for tour Sort Prop with tours_mut := Induction for tours Sort Prop.
Lemma tour_det : forall stop k n evs, tour stop k n evs -> forall evs', tour stop k n evs' -> evs' = evs.
Proof.
  intro stop.
  apply (tour_mut stop (fun k n evs _ => forall evs', tour stop k n evs' -> evs' = evs)
                       (fun l evs _ => forall evs', tours stop l evs' -> evs' = evs)).
  - intros k n L evs' H. inversion H; subst; auto; congruence.
  - intros k n L S evs' H. inversion H; subst; auto; congruence.
  - intros k n evs L S T IH evs' H. inversion H; subst; try congruence. f_equal. f_equal. auto.
  - intros evs' H. now inversion H.
  - intros k n l evs evs' T IH T' IH' evs2 H. inversion H; subst. f_equal; auto.
Qed.

(** ** Aborting *)
Section Abort.
  Context {St : Type}.
  Variables (enter exit : kind -> anode -> St -> cres (option stopper * St)).
  (** Turns every [Aborter] of an enter callback into a [NodeExiter]. *)
  Definition softly (s : option stopper) : option stopper :=
    match s with Some s => Some (mkStopper (exit_node s) (abort s && negb (exit_node s))) | None => None end.
  Definition soft (enter : kind -> anode -> St -> cres (option stopper * St)) (k : kind) (n : anode) (st : St)
    : cres (option stopper * St) :=
    cbind (enter k n st) (fun '(s, st) => COk (softly s, st)).

  Lemma reaction_softly : forall s, reaction (softly s) = reaction s.
  Proof. intros [[[] []]|]; reflexivity. Qed.

  (** What is visible of the result of a walk: the stopper up to [softly]. *)
  Definition soft_result (r : cres (option stopper * St)) : cres (option stopper * St) :=
    cbind r (fun '(s, st) => COk (softly s, st)).

  Lemma walk_soft : forall fuel k n st, soft_result (walk (soft enter) exit fuel k n st) = soft_result (walk enter exit fuel k n st).
  Proof.
    induction fuel as [|fuel IH]; intros k n st; auto.
    cbn [walk]. unfold soft at 1. destruct (enter k n st) as [[s st1]| |]; auto. cbn [cbind].
    destruct (leaf_kind k).
    - cbn [soft_result cbind]. now destruct s as [[[] []]|].
    - rewrite reaction_softly. destruct (reaction s); auto.
      assert (Q : forall l st, walk_children (walk (soft enter) exit fuel) l st = walk_children (walk enter exit fuel) l st).
      { induction l as [|[k' m] l IHl]; intro st0; auto. cbn [walk_children].
        specialize (IH k' m st0).
        destruct (walk (soft enter) exit fuel k' m st0) as [[s1 t1]| |]; destruct (walk enter exit fuel k' m st0) as [[s2 t2]| |];
          cbn [soft_result cbind] in *; try discriminate; auto.
        injection IH as E ->. rewrite <- (reaction_softly s1), <- (reaction_softly s2), E.
        destruct (reaction (softly s2)); auto. }
      now rewrite Q.
  Qed.
End Abort.

(** ** Stoppers that abort without asking to leave the node *)
Section Hard.
  Context {St : Type}.
  Variables (enter exit : kind -> anode -> St -> cres (option stopper * St)) (Q : St -> Prop).
  Definition aborts (s : option stopper) : Prop := exists x, s = Some x /\ abort x = true.
  (** The callbacks go to a state in [Q] exactly when they abort, and never ask for both. *)
  Definition hard (cb : kind -> anode -> St -> cres (option stopper * St)) : Prop :=
    forall k n st s st', ~ Q st -> cb k n st = COk (s, st') ->
      (aborts s <-> Q st') /\ (forall x, s = Some x -> abort x = true -> exit_node x = false).
  Hypothesis hard_enter : hard enter.
  Hypothesis hard_exit : hard exit.

  Lemma reaction_hard : forall s, (forall x, s = Some x -> abort x = true -> exit_node x = false) ->
    match reaction s with Some r => (aborts r <-> aborts s) /\ (aborts r -> r = s) | None => ~ aborts s end.
  Proof.
    intros [x|] H; simpl.
    - destruct (exit_node x) eqn:E.
      + split; [|intros [y [Y _]]; discriminate]. split; intros [y [Y A]]; [discriminate|]. injection Y as <-.
        rewrite (H x eq_refl A) in E. discriminate.
      + destruct (abort x) eqn:A; [split; tauto|]. intros [y [Y B]]. injection Y as <-. congruence.
    - intros [y [Y _]]. discriminate.
  Qed.

  Lemma hard_abort_stops : forall fuel k n st s st', ~ Q st -> walk enter exit fuel k n st = COk (s, st') ->
    (aborts s <-> Q st') /\ (forall x, s = Some x -> abort x = true -> exit_node x = false).
  Proof.
    induction fuel as [|fuel IH]; intros k n st s st' NQ H; [discriminate|].
    cbn [walk] in H. apply cbind_inv in H as [[s1 st1] [E1 H]].
    destruct (hard_enter _ _ _ _ _ NQ E1) as [A1 B1].
    destruct (leaf_kind k); [now injection H as <- <-|].
    pose proof (reaction_hard s1 B1) as R. destruct (reaction s1) as [r|].
    - injection H as <- <-. destruct R as [R1 R2]. split; [now rewrite R1|].
      intros x X A. apply (B1 x); auto. rewrite <- R2; auto. exists x. auto.
    - assert (NQ1 : ~ Q st1) by tauto. apply cbind_inv in H as [c [C H]].
      assert (CH : forall l st c, ~ Q st -> walk_children (walk enter exit fuel) l st = COk c ->
        match c with
        | inl (s, st') => (aborts s <-> Q st') /\ (forall x, s = Some x -> abort x = true -> exit_node x = false)
        | inr st' => ~ Q st'
        end).
      { induction l as [|[k' m] l IHl]; intros st0 c0 N0 H0; cbn [walk_children] in H0; [now injection H0 as <-|].
        apply cbind_inv in H0 as [[s2 st2] [E2 H0]]. destruct (IH _ _ _ _ _ N0 E2) as [A2 B2].
        pose proof (reaction_hard s2 B2) as R'. destruct (reaction s2) as [r|].
        - injection H0 as <-. destruct R' as [R1 R2]. split; [now rewrite R1|].
          intros x X A. apply (B2 x); auto. rewrite <- R2; auto. exists x. auto.
        - apply (IHl st2); auto. tauto. }
      apply CH in C; auto. destruct c as [[s3 st3]|st3].
      + now injection H as <- <-.
      + apply cbind_inv in H as [[s4 st4] [E4 H]]. destruct (hard_exit _ _ _ _ _ C E4) as [A4 B4].
        destruct s4 as [x|].
        * destruct (abort x) eqn:AX; injection H as <- <-; auto. split; [|discriminate]. rewrite <- A4.
          split; intros [y [Y B]]; [discriminate|]. injection Y as <-. congruence.
        * now injection H as <- <-.
  Qed.
End Hard.
