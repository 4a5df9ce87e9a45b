(** Lemmas about the comparison of parse trees for tests and the report of [NodeDiff]. *)
From Verif Require Import Base Scanner ScannerProofs Syntax Diff DiffSpec DiffProofs NodeCheck NodeCheckSpec.
From Coq Require Import Permutation.

Section Check.
  Variable deep : branch -> branch -> bool.
  Notation assert_nodes := (assert_nodes deep).

  Lemma deep_scanner_ok : forall x y, deep_scanner x y = true <-> x = y.
  Proof.
    intros [a b c] [a' b' c']. unfold deep_scanner. cbn [src start slen]. rewrite !andb_true_iff, osource_eqb_eq, !Z.eqb_eq. split; [intros [[-> ->] ->]; reflexivity|]. intros E. injection E as -> -> ->. auto.
  Qed.
  Lemma deep_extra_ok : forall x y, deep_extra deep x y = true <-> same_extra deep x y.
  Proof.
    intros x y. split.
    - destruct x, y; cbn; try discriminate; intros H.
      + constructor; discriminate.
      + apply Nat.eqb_eq in H as ->. constructor; discriminate.
      + apply assoc_eqb_eq in H as ->. constructor; discriminate.
      + now constructor.
    - intros [z N|a b H]; [|exact H]. destruct z as [|c|a|b]; cbn; auto; [apply Nat.eqb_refl|now apply assoc_eqb_eq|now destruct (N b)].
  Qed.

  Definition child (a b : tree) (path : list nat) : bool * list complaint :=
    match a, b with
    | Node _ _ _, Node _ _ _ => assert_nodes a b path
    | Leaf s, Leaf s' => holds (deep_scanner s s') (CLeaf path s s')
    | Empty, Empty => (false, [CUnexpected a b])
    | _, _ => (false, [CType path a b])
    end.
  Fixpoint kids (path : list nat) (i : nat) (xs ys : list tree) {struct xs} : bool * list complaint :=
    match xs, ys with
    | a :: xs', b :: ys' => also (child a b (path ++ [i])) (kids path (S i) xs' ys')
    | [], ys => (true, beyond CSurplus path i ys)
    | xs, [] => (true, beyond CMissing path i xs)
    end.
  Lemma assert_node : forall t x cs t' x' cs' path, assert_nodes (Node t x cs) (Node t' x' cs') path =
    also (holds (String.eqb t t') (CTag path t t')) (also (holds (deep_extra deep x x') (CExtra path x x'))
      (also (holds (Nat.eqb (length cs) (length cs')) (CLength (length cs) (length cs'))) (kids path 0 cs cs'))).
  Proof.
    intros. cbn [NodeCheck.assert_nodes]. do 3 f_equal. generalize 0 as i. revert cs'. induction cs as [|a cs IH]; intros [|b cs'] i; cbn [kids]; auto. rewrite <- IH. reflexivity.
  Qed.

  (** The result is true exactly if nothing is reported. *)
  Lemma holds_silent : forall ok c, fst (holds ok c) = true <-> snd (holds ok c) = [].
  Proof. intros [] c; cbn; split; congruence. Qed.
  Lemma also_silent : forall x y, (fst x = true <-> snd x = []) -> (fst y = true <-> snd y = []) -> (fst (also x y) = true <-> snd (also x y) = []).
  Proof.
    intros x y A B. unfold also. cbn [fst snd]. rewrite andb_true_iff, A, B. split; [intros [-> ->]; reflexivity|]. intros H. now apply app_eq_nil in H.
  Qed.
  Lemma child_silent : forall a b path, (forall b path, fst (assert_nodes a b path) = true <-> snd (assert_nodes a b path) = []) -> (fst (child a b path) = true <-> snd (child a b path) = []).
  Proof.
    intros a b path H. destruct a, b; try (cbn; split; discriminate); [apply H|apply holds_silent].
  Qed.
  Lemma nodes_silent : forall a b path, fst (assert_nodes a b path) = true <-> snd (assert_nodes a b path) = [].
  Proof.
    induction a as [t x cs H|s|] using tree_ind'; intros [t' x' cs'|s'|] path; try (cbn; tauto). rewrite assert_node.
    apply also_silent; [apply holds_silent|]. apply also_silent; [apply holds_silent|]. destruct (Nat.eqb_spec (length cs) (length cs')) as [E|NE].
    - apply also_silent; [apply holds_silent|]. generalize 0 as i. revert cs' E. induction H as [|a cs Ha Hs IH]; intros [|b cs'] E i; try discriminate; [cbn; tauto|].
      cbn [kids]. apply also_silent; [now apply child_silent|]. apply IH. cbn in E. lia.
    - cbn. split; discriminate.
  Qed.

  (** The result is true exactly if the trees are the same and have no mark for a separator that is not there. *)
  Lemma nodes_decide : forall a t' x' cs' path, (exists t x cs, a = Node t x cs) -> (fst (assert_nodes a (Node t' x' cs') path) = true <-> same_tree deep a (Node t' x' cs') /\ no_empty a).
  Proof.
    induction a as [t x cs H|s|] using tree_ind'; intros t' x' cs' path (t0 & x0 & cs0 & E0); try discriminate. clear t0 x0 cs0 E0. rewrite assert_node. cbn [also fst holds].
    rewrite !andb_true_iff, String.eqb_eq, deep_extra_ok, Nat.eqb_eq.
    assert (K : forall i, length cs = length cs' -> (fst (kids path i cs cs') = true <-> Forall2 (same_tree deep) cs cs' /\ Forall no_empty cs)).
    { revert cs'. induction H as [|a cs Ha Hs IH]; intros [|b cs'] i L; try discriminate; [cbn; split; auto|]. cbn [kids also fst]. rewrite andb_true_iff, IH by (cbn in L; lia).
      assert (C : fst (child a b (path ++ [i])) = true <-> same_tree deep a b /\ no_empty a).
      { destruct a as [ta xa ca|sa|], b as [tb xb cb|sb0|]; try (cbn; split; [discriminate|intros [X _]; solve [inversion X]]).
        - apply Ha. eauto.
        - cbn [child holds fst]. rewrite deep_scanner_ok. split; [intros ->; split; constructor|]. intros [X _]. now inversion X.
        - cbn. split; [discriminate|]. intros [_ X]. inversion X. }
      rewrite C. split.
      - intros [[A1 A2] [B1 B2]]. split; constructor; auto.
      - intros [A B]. inversion A; subst. inversion B; subst. auto. }
    split.
    - intros (-> & SE & L & KK). apply K in KK as [A B]; auto. split; constructor; auto.
    - intros [A B]. inversion A as [? ? ? ? ? SE F| |]; subst. inversion B; subst. assert (L : length cs = length cs') by (clear -F; induction F; cbn; auto). repeat split; auto. now apply K.
  Qed.

  (** Without attached ASTs the same trees are equal. *)
  Lemma same_equal : forall a b, no_ast a -> (same_tree deep a b <-> a = b).
  Proof.
    induction a as [t x cs H|s|] using tree_ind'; intros b N; inversion N as [? ? ? NB F| |]; subst.
    - split.
      + intros S. inversion S as [? ? y ? ds SE FF| |]; subst. inversion SE; subst; [|now destruct (NB a)]. f_equal. clear -H F FF. revert ds FF. induction H as [|a cs Ha Hs IH]; intros ds FF; inversion FF; subst; auto.
        inversion F; subst. f_equal; [now apply Ha|now apply IH].
      + intros <-. constructor; [now constructor|]. clear -H F. induction H as [|a cs Ha Hs IH]; constructor; inversion F; subst; auto. now apply Ha.
    - split; [intros S; now inversion S|intros <-; constructor].
    - split; [intros S; now inversion S|intros <-; constructor].
  Qed.
End Check.

(** * What the complaints point at *)
Lemma leads_app : forall v p w, leads v p w -> forall q z, leads w q z -> leads v (p ++ q) z.
Proof. intros v p w H. induction H; intros q z Z; cbn [app]; auto. econstructor; eauto. Qed.
Lemma leads_split : forall v p q z, leads v (p ++ q) z -> exists w, leads v p w /\ leads w q z.
Proof.
  intros v p. revert v. induction p as [|i p IH]; intros v q z H; cbn [app] in H; [exists v; split; [constructor|auto]|]. inversion H; subst.
  destruct (IH _ _ _ H5) as (w & A & B). exists w. split; auto. econstructor; eauto.
Qed.
Lemma leads_fun : forall v p a, leads v p a -> forall b, leads v p b -> a = b.
Proof. intros v p a H. induction H; intros b B; inversion B; subst; auto. assert (c = c0) by congruence. subst. auto. Qed.
Lemma leads_child : forall v p t x cs i c, leads v p (Node t x cs) -> nth_error cs i = Some c -> leads v (p ++ [i]) c.
Proof. intros. eapply leads_app; eauto. econstructor; eauto. constructor. Qed.
Lemma leads_no_child : forall v p t x cs i, leads v p (Node t x cs) -> length cs <= i -> forall b, ~ leads v (p ++ [i]) b.
Proof.
  intros v p t x cs i H L b B. apply leads_split in B as (w & A & B). rewrite (leads_fun _ _ _ A _ H) in B. inversion B; subst. apply nth_error_None in L. congruence.
Qed.

Lemma beyond_in : forall C path cs i c, In c (beyond C path i cs) -> exists k x, nth_error cs k = Some x /\ c = C (path ++ [i + k]) x.
Proof.
  intros C path cs. induction cs as [|x cs IH]; intros i c []; [subst c; exists 0, x; rewrite Nat.add_0_r; auto|].
  destruct (IH _ _ H) as (k & y & A & ->). exists (S k), y. split; auto. now rewrite Nat.add_succ_r.
Qed.
Lemma holds_in : forall ok c c', In c' (snd (holds ok c)) -> c' = c /\ ok = false.
Proof. intros [] c c' H; cbn in H; [contradiction|]. destruct H as [->|[]]. auto. Qed.
Lemma also_in : forall x y c, In c (snd (also x y)) -> In c (snd x) \/ In c (snd y).
Proof. intros x y c H. unfold also in H. cbn [snd] in H. now apply in_app_or in H. Qed.

Lemma nodes_rightly : forall deep V U a b path, leads V path a -> leads U path b -> forall c, In c (snd (assert_nodes deep a b path)) -> rightly deep V U c.
Proof.
  intros deep V U a. induction a as [t x cs H|s|] using tree_ind'; intros [t' x' cs'|s'|] path LV LU c IN; try (cbn in IN; contradiction). rewrite assert_node in IN.
  apply also_in in IN as [IN|IN]; [|apply also_in in IN as [IN|IN]; [|apply also_in in IN as [IN|IN]]].
  - apply holds_in in IN as [-> E]. apply String.eqb_neq in E. econstructor 1; eauto.
  - apply holds_in in IN as [-> E]. econstructor 2; eauto. intros S. apply deep_extra_ok in S. congruence.
  - apply holds_in in IN as [-> E]. apply Nat.eqb_neq in E. econstructor 3; eauto.
  - assert (K : forall xs ys i, (forall k, nth_error xs k = nth_error cs (i + k)) -> (forall k, nth_error ys k = nth_error cs' (i + k)) ->
       Forall (fun a => forall b path, leads V path a -> leads U path b -> forall c, In c (snd (assert_nodes deep a b path)) -> rightly deep V U c) xs ->
       In c (snd (kids deep path i xs ys)) -> rightly deep V U c).
    { clear IN H. induction xs as [|a xs IH]; intros ys i NX NY F IN.
      - cbn [kids snd] in IN. destruct ys as [|b ys]; [contradiction|]. cbn [kids snd] in IN. apply beyond_in in IN as (k & y & A & ->). econstructor 8.
        + eapply leads_child; eauto. now rewrite <- NY.
        + eapply leads_no_child; eauto. specialize (NX 0). rewrite Nat.add_0_r in NX. symmetry in NX. apply nth_error_None in NX. lia.
      - destruct ys as [|b ys].
        + cbn [kids snd] in IN. apply beyond_in in IN as (k & y & A & ->). econstructor 7.
          * eapply leads_child; eauto. now rewrite <- NX.
          * eapply leads_no_child; eauto. specialize (NY 0). rewrite Nat.add_0_r in NY. symmetry in NY. apply nth_error_None in NY. lia.
        + inversion F as [|? ? Fa Fs]; subst. pose proof (NX 0) as XA. pose proof (NY 0) as YB. rewrite Nat.add_0_r in XA, YB. cbn in XA, YB. symmetry in XA, YB.
          pose proof (leads_child _ _ _ _ _ _ _ LV XA) as PA. pose proof (leads_child _ _ _ _ _ _ _ LU YB) as PB.
          cbn [kids] in IN. apply also_in in IN as [IN|IN].
          * destruct a as [ta xa ca|sa|], b as [tb xb cb|sb0|]; cbn [child] in IN; try (destruct IN as [<-|[]]; econstructor 4; eauto; intros X; solve [inversion X]).
            -- eapply Fa; eauto.
            -- apply holds_in in IN as [-> E]. econstructor 5; eauto. intros X. apply deep_scanner_ok in X. congruence.
            -- destruct IN as [<-|[]]. econstructor 6; eauto.
          * apply (IH ys (S i)); auto; intros k; [specialize (NX (S k))|specialize (NY (S k))]; rewrite Nat.add_succ_r in *; auto. }
    apply (K cs cs' 0); auto.
Qed.

(** * The report of NodeDiff *)
Section Report.
  Variable order : forall A, list (nat * A) -> list (nat * A).
  Hypothesis order_ok : forall A l, Permutation (order A l) l.

  Lemma gather_in : forall l ms, gather l = Some ms -> forall m, In m ms <-> exists i x, In (i, Some x) l /\ In m x.
  Proof.
    induction l as [|[i [x|]] l IH]; intros ms H m; cbn in H; try discriminate.
    - injection H as <-. split; [contradiction|]. intros (? & ? & [] & _).
    - destruct (gather l) as [y|]; [|discriminate]. injection H as <-. rewrite in_app_iff, (IH y eq_refl m). split.
      + intros [A|(j & z & A & B)]; [exists i, x; split; [now left|auto]|exists j, z; split; [now right|auto]].
      + intros (j & z & [A|A] & B); [injection A as <- <-; auto|right; eauto].
  Qed.
  Lemma gather_some : forall l, (forall i x, In (i, x) l -> x <> None) -> exists ms, gather l = Some ms.
  Proof.
    induction l as [|[i [x|]] l IH]; intros H; cbn; [eauto| |].
    - destruct IH as (y & ->); [intros j z A; apply (H j z); now right|]. eauto.
    - now destruct (H i None (or_introl eq_refl)).
  Qed.

  Definition under (path : list (string * nat)) (m : message) : message := (path ++ fst m, snd m).

  Lemma across_nodes : forall v u p a b, across v u p a b -> forall t x cs, a = Node t x cs -> exists t' x' cs', v = Node t' x' cs'.
  Proof. intros v u p a b H. destruct H; eauto. Qed.

  Lemma diff_children_in : forall cs ds i l, diff_children i cs ds = Some l ->
    forall j d, In (j, d) l <-> exists k t x c t' x' c', j = i + k /\ nth_error cs k = Some (Node t x c) /\ nth_error ds k = Some (Node t' x' c') /\
      node_diff (Node t x c) (t', x', c') = Some d /\ ndiff_equal d = Some false.
  Proof.
    induction cs as [|a cs IH]; intros ds i l H j d.
    - destruct ds; cbn in H; injection H as <-; (split; [contradiction|]); intros (k & ? & ? & ? & ? & ? & ? & _ & A & _); destruct k; discriminate.
    - destruct ds as [|b ds]; [cbn in H; destruct a; injection H as <-; (split; [contradiction|]); intros (k & ? & ? & ? & ? & ? & ? & _ & _ & A & _); destruct k; discriminate|].
      assert (SH : forall l', diff_children (S i) cs ds = Some l' -> In (j, d) l' <-> exists k t x c t' x' c', j = i + S k /\ nth_error (a :: cs) (S k) = Some (Node t x c) /\ nth_error (b :: ds) (S k) = Some (Node t' x' c') /\
        node_diff (Node t x c) (t', x', c') = Some d /\ ndiff_equal d = Some false).
      { intros l' H'. rewrite (IH _ _ _ H' j d). split; intros (k & t & x & c & t' & x' & c' & A & B); exists k, t, x, c, t', x', c'; (split; [lia|exact B]). }
      destruct a as [t x c|s|].
      + destruct b as [t' x' c'|s'|]; try discriminate.
        change (match node_diff (Node t x c) (t', x', c') with
                | None => None
                | Some d => match ndiff_equal d with
                            | None => None
                            | Some e => match diff_children (S i) cs ds with
                                        | None => None
                                        | Some ds => Some (if e then ds else (i, d) :: ds)
                                        end
                            end
                end = Some l) in H.
        destruct (node_diff (Node t x c) (t', x', c')) as [d0|] eqn:D; [|discriminate]. destruct (ndiff_equal d0) as [e|] eqn:E; [|discriminate].
        destruct (diff_children (S i) cs ds) as [l'|] eqn:L; [|discriminate]. injection H as <-. split.
        * intros IN. assert (IN2 : e = false /\ (j, d) = (i, d0) \/ In (j, d) l') by (destruct e; [right; exact IN|destruct IN as [IN|IN]; auto]). clear IN. destruct IN2 as [[-> EQ]|IN].
          -- injection EQ as -> ->. exists 0, t, x, c, t', x', c'. rewrite Nat.add_0_r. auto.
          -- apply (SH _ eq_refl) in IN as (k & R). exists (S k). exact R.
        * intros ([|k] & t1 & x1 & c1 & t2 & x2 & c2 & A & B & C & DD & EE).
          -- cbn in B, C. injection B as -> -> ->. injection C as -> -> ->. rewrite D in DD. injection DD as ->. rewrite E in EE. injection EE as ->. rewrite Nat.add_0_r in A. subst j. now left.
          -- assert (In (j, d) l') by (apply (SH _ eq_refl); exists k, t1, x1, c1, t2, x2, c2; auto). destruct e; [auto|now right].
      + rewrite (SH l) by (destruct b; exact H). split; [intros (k & R); exists (S k); exact R|]. intros ([|k] & t1 & x1 & c1 & t2 & x2 & c2 & A & B & R); [discriminate|]. exists k, t1, x1, c1, t2, x2, c2. auto.
      + rewrite (SH l) by (destruct b; exact H). split; [intros (k & R); exists (S k); exact R|]. intros ([|k] & t1 & x1 & c1 & t2 & x2 & c2 & A & B & R); [discriminate|]. exists k, t1, x1, c1, t2, x2, c2. auto.
  Qed.

  Lemma node_diff_shape : forall t x cs b d, node_diff (Node t x cs) b = Some d -> exists l, diff_children 0 cs (snd b) = Some l /\ d = NDiff (t, x, cs) b l.
  Proof.
    intros t x cs b d H.
    change (match diff_children 0 cs (snd b) with None => None | Some ds => Some (NDiff (t, x, cs) b ds) end = Some d) in H.
    destruct (diff_children 0 cs (snd b)) as [l|]; [|discriminate]. injection H as <-. eauto.
  Qed.
  Lemma facing_nth : forall cs ds, facing_all cs ds -> forall k a b, nth_error cs k = Some a -> nth_error ds k = Some b -> facing a b.
  Proof.
    induction cs as [|c cs IH]; intros ds F k a b A B; [destruct k; discriminate|]. destruct ds as [|d ds]; [destruct k; discriminate|]. inversion F; subst.
    destruct k as [|k]; cbn in A, B; [injection A as ->; injection B as ->; auto|eapply IH; eauto].
  Qed.
  Lemma same_nodes_across : forall v u p a b, across v u p a b -> same_nodes v u -> same_nodes a b.
  Proof.
    intros v u p a b H. induction H as [|t x cs t' x' cs' i tc xc cc tc' xc' cc' p v u A B C IH]; auto. intros S. apply IH. inversion S as [? ? ? ? _ F| |]; subst.
    clear -A B F. revert i A B. induction F as [|c d cs ds CD F IH]; intros [|i] A B; try discriminate; cbn in A, B; [injection A as ->; injection B as ->; auto|eauto].
  Qed.
  Lemma same_nodes_silent : forall v u m, same_nodes v u -> ~ truly v u m.
  Proof.
    intros v u m S T. destruct T as [p t x cs t' x' cs' A N|p t x cs t' x' cs' A N|p t x cs t' x' cs' A N]; pose proof (same_nodes_across _ _ _ _ _ A S) as Q; inversion Q as [? ? ? ? NB F| |]; subst; try congruence.
    apply N. clear -F. induction F; cbn; auto.
  Qed.
  Lemma truly_down : forall t x cs t' x' cs' i tc xc cc tc' xc' cc' m, nth_error cs i = Some (Node tc xc cc) -> nth_error cs' i = Some (Node tc' xc' cc') ->
    truly (Node tc xc cc) (Node tc' xc' cc') m -> truly (Node t x cs) (Node t' x' cs') (under [(tc, i)] m).
  Proof. intros t x cs t' x' cs' i tc xc cc tc' xc' cc' m A B T. destruct T; unfold under; cbn [fst snd app]; econstructor; eauto; econstructor; eauto. Qed.

  Lemma report_ok : forall a tb xb cb d path, (exists t x cs, a = Node t x cs) -> facing a (Node tb xb cb) -> node_diff a (tb, xb, cb) = Some d ->
    exists ms, report order path d = Some ms /\ forall m, In m ms <-> exists m', m = under path m' /\ truly a (Node tb xb cb) m'.
  Proof.
    induction a as [t x cs H|s|] using tree_ind'; intros tb xb cb d path (t0 & x0 & cs0 & E0) F D; try discriminate. clear t0 x0 cs0 E0.
    destruct (node_diff_ok (Node t x cs) tb xb cb) as (d0 & e & D0 & E & SN); eauto. rewrite D in D0. injection D0 as <-.
    destruct (node_diff_shape _ _ _ _ _ D) as (l & L & ->). cbn [snd] in L. inversion F as [? ? ? ? ? ? NB FA| |]; subst. destruct (extra_eqb_ok x xb NB) as (ex & X1 & X2).
    cbn [report]. rewrite E. destruct e.
    { exists []. split; auto. intros m. split; [contradiction|]. intros (m' & _ & T). now destruct (same_nodes_silent _ _ _ (proj1 SN eq_refl) T). }
    rewrite X1. clear E SN.
    (* the children *)
    assert (K : forall i d', In (i, d') l -> exists tc xc cc tc' xc' cc', nth_error cs i = Some (Node tc xc cc) /\ nth_error cb i = Some (Node tc' xc' cc') /\ ndiff_tag d' = tc /\
       node_diff (Node tc xc cc) (tc', xc', cc') = Some d' /\
       exists ms, report order (path ++ [(tc, i)]) d' = Some ms /\ forall m, In m ms <-> exists m', m = under (path ++ [(tc, i)]) m' /\ truly (Node tc xc cc) (Node tc' xc' cc') m').
    { intros i d' IN. apply (diff_children_in _ _ _ _ L) in IN as (k & tc & xc & cc & tc' & xc' & cc' & EQ & A & B & ND & NE). cbn in EQ. subst k.
      exists tc, xc, cc, tc', xc', cc'. do 2 (split; [auto|]). destruct (node_diff_shape _ _ _ _ _ ND) as (l' & _ & EQ). split; [now subst d'|]. split; [auto|].
      rewrite Forall_forall in H. apply (H (Node tc xc cc)); [eapply nth_error_In; eauto|eauto| |auto]. eapply facing_nth; eauto. }
    set (parts := map (fun '(i, d') => (i, report order (path ++ [(ndiff_tag d', i)]) d')) l).
    assert (PI : forall i r, In (i, r) (order _ parts) <-> exists d', In (i, d') l /\ r = report order (path ++ [(ndiff_tag d', i)]) d').
    { intros i r. split.
      - intros IN. apply (Permutation_in _ (order_ok _ _)) in IN. unfold parts in IN. apply in_map_iff in IN as ([j d'] & EQ & IN). injection EQ as <- <-. eauto.
      - intros (d' & IN & ->). apply (Permutation_in _ (Permutation_sym (order_ok _ _))). unfold parts. apply in_map_iff. exists (i, d'). auto. }
    destruct (gather_some (order _ parts)) as (rest & G).
    { intros i r IN. apply PI in IN as (d' & IN & ->). destruct (K _ _ IN) as (tc & xc & cc & tc' & xc' & cc' & _ & _ & -> & _ & ms & -> & _). discriminate. }
    change (fun '(i, d') => (i, report order (path ++ [(ndiff_tag d', i)]) d')) with (fun '(i, d') => (i, report order (path ++ [(ndiff_tag d', i)]) d')) in *. fold parts. rewrite G. eexists. split; [reflexivity|].
    intros m. rewrite !in_app_iff. split.
    - intros [IN|[IN|[IN|IN]]].
      + destruct (String.eqb_spec t tb); [contradiction|]. destruct IN as [<-|[]]. exists ([], DTag t tb). split; [unfold under; cbn; now rewrite app_nil_r|]. econstructor; [constructor|auto].
      + destruct ex; [contradiction|]. destruct IN as [<-|[]]. exists ([], DExtra x xb). split; [unfold under; cbn; now rewrite app_nil_r|]. econstructor; [constructor|]. intros Q. apply X2 in Q. discriminate.
      + destruct (Nat.eqb_spec (length cs) (length cb)); [contradiction|]. destruct IN as [<-|[]]. exists ([], DCount (length cs) (length cb)). split; [unfold under; cbn; now rewrite app_nil_r|]. econstructor; [constructor|auto].
      + apply (gather_in _ _ G) in IN as (i & y & IN & M). apply PI in IN as (d' & IN & R). destruct (K _ _ IN) as (tc & xc & cc & tc' & xc' & cc' & A & B & TG & _ & ms & R' & MS). rewrite TG, R' in R. injection R as ->.
        destruct (proj1 (MS m) M) as (m' & EQ & T). rewrite EQ. clear EQ. exists (under [(tc, i)] m'). split; [unfold under; cbn [fst snd]; now rewrite app_assoc|]. eapply truly_down; eauto.
    - intros (m' & -> & T).
      assert (Q : (exists q, m' = ([], q)) \/ exists tc i xc cc tc' xc' cc' m'', m' = under [(tc, i)] m'' /\ nth_error cs i = Some (Node tc xc cc) /\ nth_error cb i = Some (Node tc' xc' cc') /\ truly (Node tc xc cc) (Node tc' xc' cc') m'').
      { clear -T. inversion T as [p t0 x0 cs0 t' x' cs' A N|p t0 x0 cs0 t' x' cs' A N|p t0 x0 cs0 t' x' cs' A N]; subst m'.
        all: destruct p as [|[tc i] p]; [eauto|right]; inversion A as [|t1 x1 c1 t2 x2 c2 i1 tc1 xc cc tc' xc' cc' p1 v1 u1 NA NB AC]; subst.
        - exists tc, i, xc, cc, tc', xc', cc', (p, DTag t0 t'). split; [reflexivity|]. do 2 (split; [auto|]). econstructor; eauto.
        - exists tc, i, xc, cc, tc', xc', cc', (p, DExtra x0 x'). split; [reflexivity|]. do 2 (split; [auto|]). econstructor; eauto.
        - exists tc, i, xc, cc, tc', xc', cc', (p, DCount (length cs0) (length cs')). split; [reflexivity|]. do 2 (split; [auto|]). econstructor; eauto. }
      destruct Q as [(q & ->)|(tc & i & xc & cc & tc' & xc' & cc' & m'' & -> & A & B & T')].
      + unfold under. cbn [fst snd]. rewrite app_nil_r. inversion T as [? ? ? ? ? ? ? A N|? ? ? ? ? ? ? A N|? ? ? ? ? ? ? A N]; subst; inversion A; subst.
        * left. apply String.eqb_neq in N. rewrite N. now left.
        * right. left. destruct ex; [destruct N; now apply X2|now left].
        * right. right. left. apply Nat.eqb_neq in N. rewrite N. now left.
      + right. right. right. apply (gather_in _ _ G).
        destruct (node_diff_ok (Node tc xc cc) tc' xc' cc') as (d' & e & ND & NE & SN); [eauto|eapply facing_nth; eauto|].
        destruct e; [now destruct (same_nodes_silent _ _ _ (proj1 SN eq_refl) T')|].
        assert (IN : In (i, d') l) by (apply (diff_children_in _ _ _ _ L); exists i, tc, xc, cc, tc', xc', cc'; auto).
        destruct (K _ _ IN) as (tc0 & xc0 & cc0 & tc0' & xc0' & cc0' & A0 & B0 & TG & _ & ms & R & MS). rewrite A in A0. injection A0 as <- <- <-. rewrite B in B0. injection B0 as <- <- <-.
        exists i, ms. split; [apply PI; exists d'; rewrite TG, R; auto|]. apply MS. exists m''. split; auto. unfold under. cbn [fst snd]. now rewrite app_assoc.
  Qed.
End Report.

(** Trees between which nothing is to be reported have the same nodes. *)
Lemma silent_same : forall a b, facing a b -> (forall m, ~ truly a b m) -> same_nodes a b.
Proof.
  induction a as [t x cs H|s|] using tree_ind'; intros b F N; try constructor. inversion F as [? t' ? x' ? cs' NB FA| |]; subst.
  assert (ET : t = t') by (destruct (string_dec t t') as [|D]; auto; destruct (N ([], DTag t t')); econstructor; [constructor|auto]). subst t'.
  assert (EX : x = x').
  { destruct (extra_eqb_ok x x' NB) as (e & _ & X). destruct e; [now apply X|]. destruct (N ([], DExtra x x')). econstructor; [constructor|]. intros Q. apply X in Q. discriminate. }
  subst x'.
  assert (EL : length cs = length cs') by (destruct (Nat.eq_dec (length cs) (length cs')) as [|D]; auto; destruct (N ([], DCount (length cs) (length cs'))); econstructor; [constructor|auto]).
  constructor; auto.
  assert (NN : forall k tc xc cc tc' xc' cc', nth_error cs k = Some (Node tc xc cc) -> nth_error cs' k = Some (Node tc' xc' cc') -> forall m, ~ truly (Node tc xc cc) (Node tc' xc' cc') m).
  { intros k tc xc cc tc' xc' cc' A B m T. eapply N. eapply truly_down; eauto. }
  clear N F. revert cs' EL FA NN. induction H as [|c cs Hc Hs IH]; intros [|d ds] EL FA NN; try discriminate; constructor.
  - inversion FA as [| |? ? ? ? FC _]; subst. apply Hc; auto. intros m T. destruct c as [tc xc cc|s|], d as [td xd cd|s'|]; try (inversion T as [? ? ? ? ? ? ? A|? ? ? ? ? ? ? A|? ? ? ? ? ? ? A]; inversion A; fail). now apply (NN 0 tc xc cc td xd cd eq_refl eq_refl m).
  - inversion FA; subst. apply IH; auto. intros k. apply (NN (S k)).
Qed.
