(** Proofs about the search for cycles of rules. *)
From Verif Require Import Base Recursion RecursionSpec.

(** * Sets *)

Lemma mem_true : forall x s, mem x s = true <-> In x s.
Proof.
  intros x s. unfold mem. rewrite existsb_exists. split.
  - intros [y [H E]]. apply String.eqb_eq in E. now subst.
  - intro H. exists x. split; auto. apply String.eqb_refl.
Qed.
Lemma mem_false : forall x s, mem x s = false <-> ~ In x s.
Proof.
  intros x s. rewrite <- mem_true. destruct (mem x s); split; intro H; auto; try discriminate.
  exfalso. auto.
Qed.
Lemma with_In : forall x y s, In y (with_ x s) <-> y = x \/ In y s.
Proof.
  intros x y s. unfold with_. destruct (mem x s) eqn:E.
  - apply mem_true in E. split; auto. intros [->|H]; auto.
  - rewrite in_app_iff. simpl. intuition congruence.
Qed.
Lemma with_NoDup : forall x s, NoDup s -> NoDup (with_ x s).
Proof.
  intros x s H. unfold with_. destruct (mem x s) eqn:E; auto. apply mem_false in E.
  rewrite <- (rev_involutive (s ++ [x])).
  apply NoDup_rev. rewrite rev_app_distr. simpl. constructor.
  - now rewrite <- in_rev.
  - now apply NoDup_rev.
Qed.
Lemma union_In : forall b a y, In y (union a b) <-> In y a \/ In y b.
Proof.
  unfold union. induction b as [|x b IH]; intros a y; simpl.
  - tauto.
  - rewrite IH, with_In. intuition congruence.
Qed.
Lemma union_NoDup : forall b a, NoDup a -> NoDup (union a b).
Proof. unfold union. induction b as [|x b IH]; intros a H; simpl; auto. apply IH. now apply with_NoDup. Qed.
Lemma without_In : forall x y s, In y (without x s) <-> y <> x /\ In y s.
Proof.
  intros x y s. unfold without. rewrite filter_In, negb_true_iff, String.eqb_neq. intuition congruence.
Qed.
Lemma insert_In : forall x y l, In y (insert x l) <-> y = x \/ In y l.
Proof.
  induction l as [|z l IH]; simpl.
  - intuition congruence.
  - destruct (String.leb x z); simpl; [|rewrite IH]; intuition congruence.
Qed.
Lemma sorted_set_In : forall s y, In y (sorted_set s) <-> In y s.
Proof.
  unfold sorted_set. induction s as [|x s IH]; intro y; simpl; [tauto|].
  rewrite insert_In, IH. intuition congruence.
Qed.

Lemma with_new : forall x s, ~ In x s -> with_ x s = s ++ [x].
Proof. intros x s H. unfold with_. now rewrite (proj2 (mem_false x s) H). Qed.
Lemma with_old : forall x s, In x s -> with_ x s = s.
Proof. intros x s H. unfold with_. now rewrite (proj2 (mem_true x s) H). Qed.
Lemma with_len : forall x s, length (with_ x s) <= S (length s).
Proof. intros x s. unfold with_. destruct (mem x s); [|rewrite app_length; simpl]; lia. Qed.

(** A list without repetition is as long as its set. *)
Lemma union_len : forall b a, NoDup (a ++ b) -> length (union a b) = length a + length b.
Proof.
  unfold union. induction b as [|x b IH]; intros a H; simpl; [lia|].
  assert (N : ~ In x a).
  { apply NoDup_remove_2 in H. intro F. apply H. apply in_or_app. auto. }
  rewrite (with_new _ _ N), IH.
  - rewrite app_length. simpl. lia.
  - now rewrite <- app_assoc.
Qed.
Lemma union_le : forall b a, length (union a b) <= length a + length b.
Proof.
  unfold union. induction b as [|x b IH]; intro a; simpl; [lia|].
  etransitivity; [apply IH|]. pose proof (with_len x a). lia.
Qed.
Lemma union_dup_lt : forall b a x, In x a -> In x b -> length (union a b) < length a + length b.
Proof.
  unfold union. induction b as [|z b IH]; intros a x Ha Hb; simpl; [contradiction|].
  destruct (String.eqb_spec x z) as [<-|N].
  - rewrite (with_old _ _ Ha). pose proof (union_le b a) as L. unfold union in L. lia.
  - destruct Hb as [Hb|Hb]; [congruence|].
    assert (In x (with_ z a)) as H by (apply with_In; auto).
    specialize (IH _ _ H Hb). pose proof (with_len z a). lia.
Qed.
Lemma set_count_dup : forall x p q r, set_count (p ++ x :: q ++ x :: r) < length (p ++ x :: q ++ x :: r).
Proof.
  intros x p q r. unfold set_count, union. rewrite fold_left_app. cbn [fold_left].
  pose proof (union_le p []) as L1. unfold union in L1. simpl in L1.
  assert (L2 : In x (with_ x (fold_left (fun s x => with_ x s) p []))) by (apply with_In; auto).
  assert (L3 : In x (q ++ x :: r)) by (apply in_or_app; simpl; auto).
  pose proof (union_dup_lt _ _ _ L2 L3) as L4. unfold union in L4.
  pose proof (with_len x (fold_left (fun s x => with_ x s) p [])) as L5.
  rewrite (app_length p). cbn [length]. lia.
Qed.

(** * Slices *)

Lemma set_nth_length : forall A i (x : A) l, length (set_nth i x l) = length l.
Proof. induction i as [|i IH]; intros x l; destruct l; simpl; auto. Qed.
Lemma set_nth_same : forall A i (x d : A) l, i < length l -> nth i (set_nth i x l) d = x.
Proof. induction i as [|i IH]; intros x d l L; destruct l; simpl in *; try lia; auto. apply IH. lia. Qed.
Lemma set_nth_other : forall A i j (x d : A) l, i <> j -> nth j (set_nth i x l) d = nth j l d.
Proof.
  induction i as [|i IH]; intros j x d l N; destruct l; simpl; auto.
  - destruct j; [congruence|auto].
  - destruct j; auto.
Qed.

(** A slice with its array in place. *)
Definition sound (h : heap) (s : slice) : Prop :=
  s_len s <= s_cap s /\
  (s_cap s = 0 \/ (s_arr s < length h /\ length (cells h (s_arr s)) = s_cap s)).
(** Every cell of [h] that cannot be written through [s] is the same in [h']. *)
Definition keeps (s : slice) (h h' : heap) : Prop :=
  length h <= length h' /\
  forall a, a < length h ->
    length (cells h' a) = length (cells h a) /\
    forall i, (a <> s_arr s \/ i < s_len s \/ s_cap s <= i) -> nth i (cells h' a) ""%string = nth i (cells h a) ""%string.

Lemma keeps_refl : forall s h, keeps s h h.
Proof. intros s h. split; auto. Qed.
Lemma keeps_trans : forall s h1 h2 h3, keeps s h1 h2 -> keeps s h2 h3 -> keeps s h1 h3.
Proof.
  intros s h1 h2 h3 [L1 K1] [L2 K2]. split; [lia|]. intros a La.
  destruct (K1 a La) as [E1 F1]. destruct (K2 a ltac:(lia)) as [E2 F2]. split; [congruence|].
  intros i C. rewrite F2, F1; auto.
Qed.
Lemma sound_keeps : forall s t h h', sound h s -> keeps t h h' -> sound h' s.
Proof.
  intros s t h h' [L S] [L' K]. split; auto. destruct S as [S|[S1 S2]]; auto. right.
  split; [lia|]. destruct (K _ S1) as [E _]. congruence.
Qed.

Lemma firstn_eq : forall (a b : list string) n, length a = length b ->
  (forall i, i < n -> nth i a ""%string = nth i b ""%string) -> firstn n a = firstn n b.
Proof.
  induction a as [|x a IH]; intros b n L H; destruct b as [|y b]; simpl in L; try discriminate; auto.
  destruct n as [|n]; auto. simpl. f_equal.
  - apply (H 0). lia.
  - apply IH; [lia|]. intros i Li. apply (H (S i)). lia.
Qed.
Lemma read_keeps : forall s t h h', sound h s -> keeps t h h' -> s_arr s <> s_arr t \/ s_len s <= s_len t \/ s_cap t = 0 ->
  read h' s = read h s.
Proof.
  intros s t h h' [L S] [L' K] C. unfold read. destruct S as [S|[S1 S2]].
  - replace (s_len s) with 0 by lia. reflexivity.
  - destruct (K _ S1) as [E F]. apply firstn_eq; auto. intros i Li. apply F.
    lia.
Qed.
Lemma read_length : forall h s, sound h s -> length (read h s) = s_len s.
Proof.
  intros h s [L S]. unfold read. rewrite firstn_length. destruct S as [S|[S1 S2]]; lia.
Qed.

Section Grow.
  Variables (grow : nat -> nat).
  Hypothesis grows : forall n, n < grow n.

  Lemma cells_set : forall (h : heap) a l b, a < length h -> cells (set_nth a l h) b = if Nat.eqb a b then l else cells h b.
  Proof.
    intros h a l b L. unfold cells. destruct (Nat.eqb_spec a b) as [->|N].
    - now apply set_nth_same.
    - now apply set_nth_other.
  Qed.
  Lemma cells_app : forall (h : heap) l b, cells (h ++ [l]) b = if Nat.eqb b (length h) then l else cells h b.
  Proof.
    intros h l b. unfold cells. destruct (Nat.eqb_spec b (length h)) as [->|N].
    - rewrite app_nth2, Nat.sub_diag; auto.
    - destruct (Nat.ltb_spec b (length h)).
      + now apply app_nth1.
      + rewrite !nth_overflow; auto. rewrite app_length. simpl. lia.
  Qed.

  Lemma append1_facts : forall h s x s' h', append1 grow h s x = (s', h') -> sound h s ->
    keeps s h h' /\ sound h' s' /\ read h' s' = read h s ++ [x] /\ s_len s' = S (s_len s)
    /\ (if Nat.ltb (s_len s) (s_cap s) then s_arr s' = s_arr s /\ s_cap s' = s_cap s
        else s_arr s' = length h /\ s_cap s' = grow (s_cap s) /\ length h < length h').
  Proof.
    intros h s x s' h' E S. unfold append1 in E. destruct (Nat.ltb_spec (s_len s) (s_cap s)) as [L|L].
    - injection E as <- <-. destruct S as [S1 S2]. destruct S2 as [S2|[S2 S3]]; [lia|].
      split; [|split; [|split; [|split; [|split]]]]; cbn [s_len s_arr s_cap]; auto.
      + split; [now rewrite set_nth_length|]. intros a La. rewrite cells_set; auto.
        destruct (Nat.eqb_spec (s_arr s) a) as [<-|N]; auto. split; [apply set_nth_length|].
        intros i C. apply set_nth_other. lia.
      + split; cbn [s_len s_arr s_cap]; [lia|]. right. rewrite set_nth_length. split; auto.
        rewrite cells_set, Nat.eqb_refl, set_nth_length; auto.
      + unfold read; cbn [s_len s_arr s_cap]. rewrite cells_set, Nat.eqb_refl by auto.
        revert S3 L. generalize (s_cap s) as c, (cells h (s_arr s)) as l, (s_len s) as n. clear.
        intros c l. revert c. induction l as [|y l IH]; intros c n H L; simpl in *; [lia|].
        destruct n as [|n]; simpl; auto. f_equal. apply (IH (c - 1)); lia.
    - injection E as <- <-.
      assert (R : length (read h s) = s_len s) by now apply read_length.
      pose proof (grows (s_cap s)) as G. destruct S as [S1 S2].
      assert (s_len s = s_cap s) as EQ by lia.
      split; [|split; [|split; [|split; [|split; [|split]]]]]; cbn [s_len s_arr s_cap]; auto.
      + split; [rewrite app_length; simpl; lia|]. intros a La. rewrite cells_app.
        destruct (Nat.eqb_spec a (length h)); [lia|]. auto.
      + split; cbn [s_len s_arr s_cap]; [lia|]. right. rewrite app_length. split; [simpl; lia|].
        rewrite cells_app, Nat.eqb_refl, !app_length, repeat_length. simpl. lia.
      + unfold read at 1; cbn [s_len s_arr s_cap]. rewrite cells_app, Nat.eqb_refl.
        rewrite firstn_app, app_length, R. simpl length.
        replace (S (s_len s) - (s_len s + 1)) with 0 by lia. simpl firstn at 2. rewrite app_nil_r.
        apply firstn_all2. rewrite app_length, R. simpl. lia.
      + rewrite app_length. simpl. lia.
  Qed.

  (** The capacity after [n] appends to the nil slice. *)
  Fixpoint cap_of (n : nat) : nat :=
    match n with O => 0 | S n => if Nat.ltb n (cap_of n) then cap_of n else grow (cap_of n) end.
  Lemma cap_of_ge : forall n, n <= cap_of n.
  Proof. induction n as [|n IH]; simpl; auto. destruct (Nat.ltb_spec n (cap_of n)); [lia|]. pose proof (grows (cap_of n)). lia. Qed.
  Lemma full_cap : forall n, full grow n -> cap_of n = n.
  Proof.
    induction 1 as [|n F IH]; auto.
    assert (forall m, n + S m <= grow n -> cap_of (n + S m) = grow n) as H.
    { induction m as [|m IHm]; intro L.
      - rewrite Nat.add_1_r. cbn [cap_of]. rewrite IH, Nat.ltb_irrefl. auto.
      - rewrite Nat.add_succ_r. cbn [cap_of]. rewrite IHm by lia.
        destruct (Nat.ltb_spec (n + S m) (grow n)); auto. lia. }
    pose proof (grows n) as G. specialize (H (grow n - S n)). replace (n + S (grow n - S n)) with (grow n) in H by lia.
    apply H. lia.
  Qed.

  (** * The search *)
  Variable ord : list string -> list string -> list string.
  Hypothesis ordered : forall p l, Permutation (ord p l) l.
  Variable g : graph.

  Section Loop.
    Variable F : list string -> list string -> slice -> heap -> option (list slice * heap).
    Variables (path seen : list string) (cur : slice).
    Hypothesis F_keeps : forall p s h ps h', sound h cur -> F p s cur h = Some (ps, h') -> keeps cur h h'.

    Lemma loop_keeps : forall ks pos h ps h', sound h cur -> paths_loop grow F path seen cur ks pos h = Some (ps, h') ->
      keeps cur h h' /\ exists more, ps = pos ++ more.
    Proof.
      induction ks as [|k ks IH]; intros pos h ps h' S E; cbn [paths_loop] in E.
      - injection E as <- <-. split; [apply keeps_refl|]. exists []. now rewrite app_nil_r.
      - destruct (mem k seen).
        + destruct (append1 grow h cur k) as [p h1] eqn:A. apply append1_facts in A; auto.
          destruct A as [A1 _]. apply IH in E; [|eapply sound_keeps; eauto].
          destruct E as [K [m ->]]. split; [eapply keeps_trans; eauto|]. exists (p :: m). now rewrite <- app_assoc.
        + destruct (F (path ++ [k]) (with_ k seen) cur h) as [[ps1 h1]|] eqn:A; [|discriminate].
          apply F_keeps in A; auto. apply IH in E; [|eapply sound_keeps; eauto].
          destruct E as [K [m ->]]. split; [eapply keeps_trans; eauto|]. exists (ps1 ++ m). now rewrite <- app_assoc.
    Qed.
    Lemma loop_split : forall ks1 ks2 pos h ps h',
      paths_loop grow F path seen cur (ks1 ++ ks2) pos h = Some (ps, h') ->
      exists pos1 h1, paths_loop grow F path seen cur ks1 pos h = Some (pos1, h1)
                      /\ paths_loop grow F path seen cur ks2 pos1 h1 = Some (ps, h').
    Proof.
      induction ks1 as [|k ks IH]; intros ks2 pos h ps h' E; cbn [paths_loop app] in *.
      - eauto.
      - destruct (mem k seen).
        + destruct (append1 grow h cur k) as [p h1]. now apply IH in E.
        + destruct (F (path ++ [k]) (with_ k seen) cur h) as [[ps1 h1]|]; [|discriminate]. now apply IH in E.
    Qed.
  End Loop.

  Lemma find_keeps : forall fuel path seen cur h ps h', sound h cur ->
    find_paths grow ord g fuel path seen cur h = Some (ps, h') -> keeps cur h h'.
  Proof.
    induction fuel as [|fuel IH]; intros path seen cur h ps h' S E; [discriminate|].
    cbn [find_paths] in E. destruct (String.eqb (last path ""%string) ""%string).
    - apply loop_keeps in E; auto; [tauto|]. intros. eapply IH; eauto.
    - destruct (append1 grow h cur (last path ""%string)) as [cur1 h1] eqn:A. apply append1_facts in A; auto.
      destruct A as [K [S1 [_ [L C]]]]. apply loop_keeps in E; auto; [|intros; eapply IH; eauto].
      destruct E as [K2 _]. split; [destruct K, K2; lia|].
      intros a La. destruct K as [L1 K], K2 as [L2 K2]. destruct (K a La) as [E1 F1], (K2 a ltac:(lia)) as [E2 F2].
      split; [congruence|]. intros i D. rewrite F2; [apply F1; auto|].
      destruct (Nat.ltb (s_len cur) (s_cap cur)); lia.
  Qed.

  (** ** Only cycles are found *)

  Definition gedge (x y : string) : Prop := exists l, lookup x g = Some l /\ In y l.
  Definition gstep (path : list string) (k : string) : Prop :=
    match rev path with [] => In k (keys g) | x :: _ => gedge x k end.
  Lemma next_gstep : forall path k, In k (next g path) -> gstep path k.
  Proof.
    intros path k. unfold next, gstep. destruct (rev path) as [|x r]; auto.
    unfold gedge. destruct (lookup x g); [eauto|intros []].
  Qed.
  Inductive gpath : list string -> Prop :=
  | gpath_nil : gpath []
  | gpath_snoc p k : gpath p -> gstep p k -> gpath (p ++ [k]).

  (** Some name is reached again. *)
  Definition closes : Prop := exists p k, gpath p /\ NoDup p /\ In k p /\ gstep p k.

  Lemma find_closes : forall fuel path seen cur h ps h',
    gpath path -> NoDup path -> (forall k, In k seen <-> In k path) ->
    find_paths grow ord g fuel path seen cur h = Some (ps, h') -> ps <> [] -> closes.
  Proof.
    induction fuel as [|fuel IH]; intros path seen cur h ps h' P N SE E NE; [discriminate|].
    cbn [find_paths] in E. destruct (if (last path "" =? "")%string then _ else _) as [cur1 h1] in E.
    assert (M : forall k, In k (ord path (next g path)) -> gstep path k).
    { intros k H. apply next_gstep. eapply Permutation_in; [apply ordered|exact H]. }
    assert (Q : forall ks pos h, (forall k, In k ks -> gstep path k) -> (pos <> [] -> closes) ->
        paths_loop grow (find_paths grow ord g fuel) path seen cur1 ks pos h = Some (ps, h') -> closes).
    { induction ks as [|k ks IHk]; intros pos h2 Mk Z D; cbn [paths_loop] in D.
      - injection D as -> ->. auto.
      - destruct (mem k seen) eqn:B.
        + exists path, k. apply mem_true in B. apply SE in B. repeat split; auto. apply Mk. now left.
        + destruct (find_paths grow ord g fuel (path ++ [k]) (with_ k seen) cur1 h2) as [[ps1 h3]|] eqn:A; [|discriminate].
          apply IHk in D; auto.
          * intros k0 H0. apply Mk. now right.
          * intro H. destruct ps1 as [|p1 ps1]; [rewrite app_nil_r in H; auto|].
            apply mem_false in B. refine (IH _ _ _ _ _ _ _ _ _ A _); [| | |discriminate].
            -- constructor; auto. apply Mk. now left.
            -- rewrite <- (rev_involutive (path ++ [k])). apply NoDup_rev. rewrite rev_app_distr. simpl.
               constructor; [rewrite <- in_rev, <- SE; auto|now apply NoDup_rev].
            -- intro k0. rewrite with_In, in_app_iff, SE. simpl. intuition congruence. }
    apply Q in E; auto. intro H. congruence.
  Qed.

  (** ** Cycles of full length are found *)

  (** The call for the node reached along [path], a part of the cycle [path ++ rest]. *)
  Variables (c : list string) (L : nat).
  Hypothesis c_nodup : NoDup c.
  Hypothesis c_names : ~ In ""%string c.
  Hypothesis c_steps : forall p k q, c = p ++ k :: q -> p <> [] -> gstep p k.
  Hypothesis c_back : forall k, hd_error c = Some k -> gstep c k.
  Hypothesis c_full : cap_of (length c) = length c.

  Lemma gstep_next : forall path k, path <> [] -> gstep path k -> In k (ord path (next g path)).
  Proof.
    intros path k N H. eapply Permutation_in; [apply Permutation_sym, ordered|].
    unfold gstep in H. unfold next. destruct (rev path) as [|x r] eqn:R.
    - apply (f_equal (@rev _)) in R. rewrite rev_involutive in R. contradiction.
    - destruct H as [l [-> H]]. exact H.
  Qed.

  Lemma find_full : forall rest fuel p0 x seen cur h ps h', c = (p0 ++ [x]) ++ rest ->
    (forall k, In k seen <-> In k (p0 ++ [x])) ->
    sound h cur -> read h cur = p0 -> s_len cur = length p0 -> s_cap cur = cap_of (length p0) ->
    find_paths grow ord g fuel (p0 ++ [x]) seen cur h = Some (ps, h') ->
    exists p k, hd_error c = Some k /\ In p ps /\ read h' p = c ++ [k] /\ sound h' p
                /\ length h <= s_arr p /\ s_len p = S (length c).
  Proof.
    induction rest as [|y rest IH]; intros fuel p0 x seen cur h ps h' CE SE S R SL SC E.
    all: destruct fuel as [|fuel]; [discriminate|]; cbn [find_paths] in E; rewrite last_last in E.
    all: destruct (String.eqb_spec x ""%string) as [->|NX];
      [exfalso; apply c_names; rewrite CE; apply in_or_app; left; apply in_or_app; simpl; auto|].
    all: destruct (append1 grow h cur x) as [cur1 h1] eqn:A; apply append1_facts in A; auto;
      destruct A as [K1 [S1 [R1 [L1 A]]]].
    all: assert (C1 : s_cap cur1 = cap_of (length (p0 ++ [x])))
      by (rewrite app_length, Nat.add_1_r; cbn [cap_of]; rewrite SC, SL in A;
          destruct (Nat.ltb (length p0) (cap_of (length p0))); tauto).
    all: rewrite SL in L1; rewrite R in R1.
    all: assert (L1' : s_len cur1 = length (p0 ++ [x])) by (rewrite app_length; simpl; lia).
    all: assert (FK : forall p s h2 ps2 h3, sound h2 cur1 -> find_paths grow ord g fuel p s cur1 h2 = Some (ps2, h3) -> keeps cur1 h2 h3)
      by (intros; eapply find_keeps; eauto).
    - rewrite app_nil_r in CE. 
      assert (exists k, hd_error c = Some k) as [k HD] by (rewrite CE; destruct p0; simpl; eauto).
      pose proof (c_back k HD) as B. rewrite CE in B. apply gstep_next in B; [|destruct p0; discriminate].
      apply in_split in B as [ks1 [ks2 B]]. rewrite B in E. apply loop_split in E as [pos1 [h2 [E1 E2]]].
      apply loop_keeps in E1 as [K2 _]; auto. cbn [paths_loop] in E2.
      replace (mem k seen) with true in E2.
      2:{ symmetry. apply mem_true, SE. rewrite <- CE. destruct c; [discriminate|]. injection HD as ->. now left. }
      destruct (append1 grow h2 cur1 k) as [p h3] eqn:A2. apply append1_facts in A2; [|eapply sound_keeps; eauto].
      destruct A2 as [K3 [S3 [R3 [L3 A3]]]]. rewrite C1, <- CE, c_full, L1', <- CE, Nat.ltb_irrefl in A3.
      destruct A3 as [A3 [A4 A5]]. apply loop_keeps in E2 as [K4 [more ->]]; auto; [|eapply sound_keeps; eauto using keeps_trans].
      exists p, k. split; auto. split; [apply in_or_app; left; apply in_or_app; right; now left|].
      assert (D : s_arr p <> s_arr cur1).
      { destruct S1 as [_ [S1|[S1 _]]].
        - exfalso. rewrite C1 in S1. pose proof (cap_of_ge (length (p0 ++ [x]))) as G. rewrite app_length in G, S1. simpl in G, S1. lia.
        - destruct K2 as [K2 _]. lia. }
      split; [|split; [|split]].
      + erewrite read_keeps; [|exact S3|exact K4|now left]. rewrite R3.
        erewrite read_keeps; [|exact S1|exact K2|right; left; auto]. now rewrite R1, CE.
      + eapply sound_keeps; eauto.
      + destruct K1, K2. lia.
      + rewrite L3, L1', CE. auto.
    - assert (CE' : c = ((p0 ++ [x]) ++ [y]) ++ rest) by (rewrite <- app_assoc; exact CE).
      pose proof (c_steps _ _ _ CE) as B. 
      assert (NE : p0 ++ [x] <> []) by (destruct p0; discriminate).
      specialize (B NE). apply gstep_next in B; auto.
      apply in_split in B as [ks1 [ks2 B]]. rewrite B in E. apply loop_split in E as [pos1 [h2 [E1 E2]]].
      apply loop_keeps in E1 as [K2 _]; auto. cbn [paths_loop] in E2.
      replace (mem y seen) with false in E2.
      2:{ symmetry. apply mem_false. rewrite SE. pose proof c_nodup as N. rewrite CE in N. apply NoDup_remove_2 in N.
          intro F. apply N. apply in_or_app. auto. }
      destruct (find_paths grow ord g fuel ((p0 ++ [x]) ++ [y]) (with_ y seen) cur1 h2) as [[ps1 h3]|] eqn:FP; [|discriminate].
      assert (S2 : sound h2 cur1) by (eapply sound_keeps; eauto).
      pose proof (FK _ _ _ _ _ S2 FP) as K3.
      apply IH in FP; auto.
      2:{ intro k. rewrite with_In, in_app_iff, SE. simpl. intuition congruence. }
      2:{ erewrite read_keeps; eauto. }
      destruct FP as [p [k [HD [IP [RP [SP [AP LP]]]]]]].
      apply loop_keeps in E2 as [K4 [more ->]]; auto; [|eapply sound_keeps; eauto].
      exists p, k. split; auto. split; [apply in_or_app; left; apply in_or_app; now right|].
      split; [|split; [|split]]; auto.
      + erewrite read_keeps; [exact RP|exact SP|exact K4|]. left.
        destruct S1 as [_ [S1|[S1 _]]].
        * exfalso. rewrite C1 in S1. pose proof (cap_of_ge (length (p0 ++ [x]))) as G. rewrite app_length in G, S1. simpl in G, S1. lia.
        * destruct K2 as [K2 _]. lia.
      + eapply sound_keeps; eauto.
      + destruct K1, K2. lia.
  Qed.

  Lemma search_full : forall fuel x p, c = x :: p -> In x (keys g) -> 
    forall b, search grow ord g fuel = Some b -> b = true.
  Proof.
    intros fuel x p CE IX b E. unfold search in E.
    destruct (find_paths grow ord g fuel [] [] nil_slice []) as [[ps h']|] eqn:FP; [|discriminate].
    injection E as <-. apply existsb_exists.
    destruct fuel as [|fuel]; [discriminate|]. cbn [find_paths last] in FP. rewrite String.eqb_refl in FP.
    assert (S0 : sound [] nil_slice) by (split; simpl; auto).
    assert (B : In x (ord [] (next g []))) by (eapply Permutation_in; [apply Permutation_sym, ordered|exact IX]).
    apply in_split in B as [ks1 [ks2 B]]. rewrite B in FP. apply loop_split in FP as [pos1 [h2 [E1 E2]]].
    assert (FK : forall p s h2 ps2 h3, sound h2 nil_slice -> find_paths grow ord g fuel p s nil_slice h2 = Some (ps2, h3) -> keeps nil_slice h2 h3)
      by (intros; eapply find_keeps; eauto).
    apply loop_keeps in E1 as [K2 _]; auto. cbn [paths_loop mem existsb app] in E2.
    destruct (find_paths grow ord g fuel [x] (with_ x []) nil_slice h2) as [[ps1 h3]|] eqn:F2; [|discriminate].
    assert (S2 : sound h2 nil_slice) by (eapply sound_keeps; eauto).
    pose proof (FK _ _ _ _ _ S2 F2) as K3.
    eapply (find_full p fuel []) in F2; auto; [|intro k; rewrite with_In; simpl; intuition congruence].
    destruct F2 as [q [k [HD [IP [RP [SP [AP LP]]]]]]].
    apply loop_keeps in E2 as [K4 [more ->]]; auto; [|eapply sound_keeps; eauto].
    exists q. split; [apply in_or_app; left; apply in_or_app; now right|].
    unfold bad_route. replace (read h' q) with (c ++ [k]).
    2:{ rewrite <- RP. symmetry. eapply read_keeps; eauto. }
    rewrite LP, CE in *. injection HD as ->. apply negb_true_iff, Nat.eqb_neq.
    pose proof (set_count_dup k [] p []) as D. 
    change ([] ++ k :: p ++ [k]) with (k :: p ++ [k]) in D. change ((k :: p) ++ [k]) with (k :: p ++ [k]).
    cbn [length] in D |- *. rewrite app_length in D. cbn [length] in D. lia.
  Qed.
End Grow.

(** * The rule graph *)

Definition targets (d : graph) (x : string) : list string := match lookup x d with Some s => s | None => [] end.
Lemma has_lookup : forall A x (g : list (string * A)), has x g = true <-> exists l, lookup x g = Some l.
Proof. intros A x g. unfold has. destruct (lookup x g); split; eauto; [discriminate|intros [l H]; discriminate]. Qed.
Lemma has_same : forall A x (g g' : list (string * A)), lookup x g' = lookup x g -> has x g' = has x g.
Proof. intros A x g g' E. unfold has. now rewrite E. Qed.

(** The node of [x] is finished. *)
Definition good (d g : graph) (x : string) : Prop :=
  exists l, lookup x g = Some l /\ (forall y, In y l <-> In y (targets d x)) /\ (forall y, In y l -> has y g = true).
Definition grown (d g g' : graph) : Prop :=
  (forall x, has x g = true -> lookup x g' = lookup x g) /\
  (forall x, has x g = false -> has x g' = true -> good d g' x).
Lemma grown_has : forall d g g' x, grown d g g' -> has x g = true -> has x g' = true.
Proof. intros d g g' x [G _] H. rewrite (has_same _ x g g'); auto. Qed.
Lemma grown_trans : forall d g1 g2 g3, grown d g1 g2 -> grown d g2 g3 -> grown d g1 g3.
Proof.
  intros d g1 g2 g3 G1 G2. split.
  - intros x H. rewrite (proj1 G2); [apply (proj1 G1); auto|eapply grown_has; eauto].
  - intros x N H. destruct (has x g2) eqn:E.
    + destruct (proj2 G1 x N E) as [l [A [B C]]]. exists l. split; [rewrite (proj1 G2); auto|]. split; auto.
      intros y Y. eapply grown_has; eauto.
    + now apply (proj2 G2).
Qed.

Definition fold_targets (walk : string -> graph -> option graph) (start : string) :=
  fold_left (fun acc target =>
               match acc with
               | None => None
               | Some g =>
                   match (if has target g then Some g else walk target g) with
                   | Some g => Some (add_next start target g)
                   | None => None
                   end
               end).
Lemma fold_targets_none : forall walk start ts, fold_targets walk start ts None = None.
Proof. induction ts; simpl; auto. Qed.

Lemma walk_rule_S : forall fuel d start g, walk_rule (S fuel) d start g =
  if has start g then Some g
  else fold_targets (walk_rule fuel d) start (sorted_set (targets d start)) (Some (aset start [] g)).
Proof. reflexivity. Qed.

Section WalkRule.
  Variable d : graph.

  Section Targets.
    Variables (walk : string -> graph -> option graph) (start : string).
    Hypothesis walks : forall t g g', walk t g = Some g' -> has t g' = true /\ grown d g g'.

    (** What is kept by the loop over the targets, with the node of [start] not finished. *)
    Lemma fold_targets_grown : forall ts g g' l0,
      lookup start g = Some l0 -> fold_targets walk start ts (Some g) = Some g' ->
      (forall x, x <> start -> has x g = true -> lookup x g' = lookup x g) /\
      (exists l, lookup start g' = Some l /\ (forall y, In y l <-> In y l0 \/ In y ts)) /\
      (forall t, In t ts -> has t g' = true) /\
      (forall x, has x g = false -> has x g' = true -> good d g' x).
    Proof.
      induction ts as [|t ts IH]; intros g g' l0 L E.
      - injection E as <-. split; auto. split; [exists l0; split; auto; intro; simpl; tauto|]. split; [intros t []|congruence].
      - unfold fold_targets in E. cbn [fold_left] in E. fold (fold_targets walk start) in E.
        destruct (if has t g then Some g else walk t g) as [g1|] eqn:W; [|rewrite fold_targets_none in E; discriminate].
        assert (G : has t g1 = true /\ grown d g g1).
        { destruct (has t g) eqn:B.
          - injection W as <-. split; auto. split; [auto|congruence].
          - auto. }
        destruct G as [T [G1 G2]].
        assert (L1 : lookup start g1 = Some l0) by (rewrite G1; auto; apply has_lookup; eauto).
        assert (HN : forall x, has x (add_next start t g1) = has x g1).
        { intro x. unfold has, add_next. destruct (String.eqb_spec start x) as [<-|N].
          - now rewrite lookup_aset_eq, L1.
          - now rewrite lookup_aset_neq. }
        destruct (IH (add_next start t g1) g' (with_ t l0)) as [A [[l [B1 B2]] [C D]]]; auto.
        { unfold add_next. now rewrite L1, lookup_aset_eq. }
        assert (K : forall x, x <> start -> has x g1 = true -> lookup x g' = lookup x g1).
        { intros x N H. rewrite A; auto; [|now rewrite HN]. unfold add_next. rewrite lookup_aset_neq; auto. }
        split; [|split; [|split]].
        + intros x N H. rewrite K; auto. rewrite (has_same _ x g g1); auto.
        + exists l. split; auto. intro y. rewrite B2, with_In. simpl. intuition congruence.
        + intros y [<-|H]; auto. destruct (String.eqb_spec t start) as [->|N].
          * apply has_lookup. eauto.
          * rewrite (has_same _ t g1 g'); auto.
        + intros x N H. destruct (has x g1) eqn:B.
          * destruct (G2 x N B) as [lx [P [Q R]]]. assert (x <> start) by (intro; subst; unfold has in N; rewrite L in N; discriminate).
            exists lx. split; [rewrite K; auto|]. split; auto. intros y Y. apply R in Y.
            destruct (String.eqb_spec y start) as [->|NS]; [apply has_lookup; eauto|].
            rewrite (has_same _ y g1 g'); auto.
          * apply D; auto. now rewrite HN.
    Qed.
  End Targets.

  Lemma walk_rule_grown : forall fuel start g g', walk_rule fuel d start g = Some g' ->
    has start g' = true /\ grown d g g'.
  Proof.
    induction fuel as [|fuel IH]; intros start g g' E; [discriminate|].
    rewrite walk_rule_S in E. destruct (has start g) eqn:B.
    - injection E as <-. split; auto. split; [auto|congruence].
    - apply (fold_targets_grown _ _ IH) with (l0 := []) in E; [|apply lookup_aset_eq].
      destruct E as [A [[l [L1 L2]] [C D]]].
      assert (HS : forall x, x <> start -> has x (aset start [] g) = has x g).
      { intros x N. unfold has. rewrite lookup_aset_neq; auto. }
      split; [apply has_lookup; eauto|]. split.
      + intros x H. assert (x <> start) by congruence. rewrite A; auto; [|now rewrite HS].
        rewrite lookup_aset_neq; auto.
      + intros x N H. destruct (String.eqb_spec x start) as [->|NE].
        * exists l. split; auto. split; intro y; rewrite L2, sorted_set_In; [simpl; tauto|].
          intros [[]|Y]. apply C. now apply sorted_set_In.
        * apply D; auto. now rewrite HS.
  Qed.

  Lemma walk_rules_grown : forall fuel ks g, walk_rules fuel d ks = Some g ->
    (forall k, In k ks -> has k g = true) /\ (forall x, has x g = true -> good d g x).
  Proof.
    intros fuel ks g. unfold walk_rules.
    assert (H : forall ks g0 g, 
      fold_left (fun acc k => match acc with Some g => walk_rule fuel d k g | None => None end) ks (Some g0) = Some g ->
      grown d g0 g /\ (forall k, In k ks -> has k g = true)).
    { clear. induction ks as [|k ks IH]; intros g0 g E; cbn [fold_left] in E.
      - injection E as <-. split; [split; [auto|congruence]|intros k []].
      - destruct (walk_rule fuel d k g0) as [g1|] eqn:W.
        + apply walk_rule_grown in W as [W1 W2]. apply IH in E as [E1 E2]. split; [eapply grown_trans; eauto|].
          intros x [<-|H]; auto. eapply grown_has; eauto.
        + exfalso. clear -E. induction ks; simpl in E; [discriminate|auto]. }
    intro E. apply H in E as [[_ E1] E2]. split; auto.
  Qed.
End WalkRule.

(** Counting the elements of [U] that are not in a set. *)
Section Missing.
  Variable U : list string.
  Definition missing (f : string -> bool) : nat := length (filter (fun x => negb (f x)) U).
  Lemma missing_le : forall f f', (forall x, f x = true -> f' x = true) -> missing f' <= missing f.
  Proof.
    intros f f' H. unfold missing. induction U as [|x l IH]; simpl; auto.
    destruct (f x) eqn:E; [rewrite (H x E); simpl; auto|]. destruct (f' x); simpl; lia.
  Qed.
  Lemma missing_lt : forall f f' k, In k U -> f k = false -> f' k = true -> (forall x, f x = true -> f' x = true) ->
    missing f' < missing f.
  Proof.
    intros f f' k I A B H. unfold missing. induction U as [|x l IH]; [contradiction|].
    pose proof (missing_le f f' H) as LE. unfold missing in LE.
    assert (LE' : length (filter (fun x => negb (f' x)) l) <= length (filter (fun x => negb (f x)) l)).
    { clear -H. induction l as [|x l IH]; simpl; auto. destruct (f x) eqn:E; [rewrite (H x E); simpl; auto|]. destruct (f' x); simpl; lia. }
    simpl. destruct I as [->|I].
    - rewrite A, B. simpl. lia.
    - assert (IH' : length (filter (fun x => negb (f' x)) l) < length (filter (fun x => negb (f x)) l)).
      { apply IH; auto. }
      destruct (f x) eqn:E; [rewrite (H x E); simpl; auto|]. destruct (f' x); simpl; lia.
  Qed.
  Lemma missing_all : forall f, missing f <= length U.
  Proof. intro f. unfold missing. induction U as [|x l IH]; simpl; auto. destruct (negb (f x)); simpl; lia. Qed.
End Missing.

Lemma targets_names : forall d x y, In y (targets d x) -> In y (graph_names d).
Proof.
  intros d x y H. unfold targets in H. destruct (lookup x d) as [l|] eqn:E; [|contradiction].
  apply in_or_app. right. apply in_concat. exists l. split; auto. apply in_map_iff. exists (x, l).
  split; auto. now apply lookup_In.
Qed.

Lemma walk_rule_total : forall d fuel start g, In start (graph_names d) ->
  missing (graph_names d) (fun x => has x g) < fuel -> walk_rule fuel d start g <> None.
Proof.
  intros d. induction fuel as [|fuel IH]; intros start g I L; [lia|].
  rewrite walk_rule_S. destruct (has start g) eqn:B; [discriminate|].
  assert (Q : forall ts g0, (forall t, In t ts -> In t (graph_names d)) -> has start g0 = true ->
    missing (graph_names d) (fun x => has x g0) < fuel ->
    fold_targets (walk_rule fuel d) start ts (Some g0) <> None).
  { induction ts as [|t ts IHt]; intros g0 T HS M; [discriminate|].
    unfold fold_targets. cbn [fold_left]. fold (fold_targets (walk_rule fuel d) start).
    assert (exists g1, (if has t g0 then Some g0 else walk_rule fuel d t g0) = Some g1 /\ forall x, has x g0 = true -> has x g1 = true) as [g1 [-> G]].
    { destruct (has t g0) eqn:C; [eauto|]. destruct (walk_rule fuel d t g0) as [g1|] eqn:W.
      - exists g1. split; auto. apply walk_rule_grown in W as [_ W]. intros. eapply grown_has; eauto.
      - exfalso. eapply IH; [| |exact W]; auto. apply T. now left. }
    assert (G' : forall x, has x g1 = true -> has x (add_next start t g1) = true).
    { intros x H. unfold add_next, has. destruct (String.eqb_spec start x) as [<-|N].
      - now rewrite lookup_aset_eq.
      - rewrite lookup_aset_neq; auto. }
    apply IHt; auto.
    - intros y Y. apply T. now right.
    - eapply Nat.le_lt_trans; [|exact M]. apply missing_le. auto. }
  apply Q.
  - intros t T. rewrite sorted_set_In in T. eapply targets_names; eauto.
  - unfold has. now rewrite lookup_aset_eq.
  - eapply Nat.lt_le_trans; [|apply Nat.lt_succ_r; exact L].
    apply missing_lt with (k := start); auto.
    + unfold has. now rewrite lookup_aset_eq.
    + intros x H. unfold has. destruct (String.eqb_spec start x) as [<-|N]; [now rewrite lookup_aset_eq|].
      rewrite lookup_aset_neq; auto.
Qed.

Lemma walk_rules_total : forall d ks, incl ks (graph_names d) -> walk_rules (graph_fuel d) d ks <> None.
Proof.
  intros d ks I. unfold walk_rules. generalize (@nil (string * list string)) as g0.
  induction ks as [|k ks IH]; intro g0; cbn [fold_left]; [discriminate|].
  destruct (walk_rule (graph_fuel d) d k g0) as [g1|] eqn:W.
  - apply IH. intros x X. apply I. now right.
  - exfalso. eapply walk_rule_total; [| |exact W]; [apply I; now left|].
    unfold graph_fuel. pose proof (missing_all (graph_names d) (fun x => has x g0)). lia.
Qed.

Lemma find_total : forall grow ord g U, (forall p l, Permutation (ord p l) l) ->
  (forall path k, In k (next g path) -> In k U) ->
  forall fuel path seen cur h, missing U (fun x => mem x seen) < fuel ->
  find_paths grow ord g fuel path seen cur h <> None.
Proof.
  intros grow ord g U P N. induction fuel as [|fuel IH]; intros path seen cur h L; [lia|].
  cbn [find_paths]. destruct (if (last path "" =? "")%string then _ else _) as [cur1 h1].
  assert (Q : forall ks pos h2, (forall k, In k ks -> In k U) ->
     paths_loop grow (find_paths grow ord g fuel) path seen cur1 ks pos h2 <> None).
  { induction ks as [|k ks IHk]; intros pos h2 I; cbn [paths_loop]; [discriminate|].
    destruct (mem k seen) eqn:B.
    - destruct (append1 grow h2 cur1 k) as [p h3]. apply IHk. intros. apply I. now right.
    - destruct (find_paths grow ord g fuel (path ++ [k]) (with_ k seen) cur1 h2) as [[ps h3]|] eqn:F.
      + apply IHk. intros. apply I. now right.
      + exfalso. eapply IH; [|exact F]. eapply Nat.lt_le_trans; [|apply Nat.lt_succ_r; exact L].
        apply missing_lt with (k := k); auto.
        * apply I. now left.
        * apply mem_true, with_In. auto.
        * intros x X. apply mem_true, with_In. right. now apply mem_true. }
  apply Q. intros k K. eapply N. eapply Permutation_in; [apply P|exact K].
Qed.

(** Every name of the graph is a rule or a danger. *)
Lemma walk_rule_names : forall d fuel start g g', In start (graph_names d) ->
  (forall x, has x g = true -> In x (graph_names d)) -> walk_rule fuel d start g = Some g' ->
  forall x, has x g' = true -> In x (graph_names d).
Proof.
  intro d. induction fuel as [|fuel IH]; intros start g g' I N E; [discriminate|].
  rewrite walk_rule_S in E. destruct (has start g) eqn:B; [injection E as <-; auto|].
  assert (AS : forall (v : list string) g0, (forall x, has x g0 = true -> In x (graph_names d)) ->
             forall x, has x (aset start v g0) = true -> In x (graph_names d)).
  { intros v g0 H x X. destruct (String.eqb_spec start x) as [<-|NE]; auto. apply H. unfold has in X |- *.
    rewrite lookup_aset_neq in X; auto. }
  assert (Q : forall ts g0 g', (forall t, In t ts -> In t (graph_names d)) ->
    (forall x, has x g0 = true -> In x (graph_names d)) ->
    fold_targets (walk_rule fuel d) start ts (Some g0) = Some g' ->
    forall x, has x g' = true -> In x (graph_names d)).
  { induction ts as [|t ts IHt]; intros g0 g2 T HS M; [injection M as <-; auto|].
    unfold fold_targets in M. cbn [fold_left] in M. fold (fold_targets (walk_rule fuel d) start) in M.
    destruct (if has t g0 then Some g0 else walk_rule fuel d t g0) as [g1|] eqn:W; [|rewrite fold_targets_none in M; discriminate].
    eapply IHt; [| |exact M].
    - intros y Y. apply T. now right.
    - apply AS. destruct (has t g0); [injection W as <-; auto|]. eapply IH; [|exact HS|exact W]. apply T. now left. }
  eapply Q; [| |exact E].
  - intros t T. rewrite sorted_set_In in T. eapply targets_names; eauto.
  - now apply AS.
Qed.
Lemma walk_rules_names : forall d fuel ks g, incl ks (graph_names d) -> walk_rules fuel d ks = Some g ->
  forall x, has x g = true -> In x (graph_names d).
Proof.
  intros d fuel ks g I E. unfold walk_rules in E.
  assert (Z : forall x, has x (@nil (string * list string)) = true -> In x (graph_names d)) by discriminate.
  revert I Z E. generalize (@nil (string * list string)) as g0.
  induction ks as [|k ks IH]; intros g0 I Z E; cbn [fold_left] in E; [injection E as <-; auto|].
  destruct (walk_rule fuel d k g0) as [g1|] eqn:W.
  - eapply IH; [| |exact E]; [intros x X; apply I; now right|]. eapply walk_rule_names; [|exact Z|exact W]. apply I. now left.
  - exfalso. clear -E. induction ks; simpl in E; [discriminate|auto].
Qed.

(** * The check as a whole *)
Section Check.
  Variables (grow : nat -> nat) (ord : list string -> list string -> list string) (ks : list string) (d : graph).
  Hypothesis grows : forall n, n < grow n.
  Hypothesis ordered : forall p l, Permutation (ord p l) l.
  Hypothesis all_rules : Permutation ks (keys d).

  Lemma names_ks : incl ks (graph_names d).
  Proof. intros k K. apply in_or_app. left. eapply Permutation_in; eauto. Qed.

  Lemma has_cycle_answers : exists b, has_cycle grow ord ks d = Some b.
  Proof.
    unfold has_cycle. destruct (walk_rules (graph_fuel d) d ks) as [g|] eqn:W.
    - unfold search. destruct (find_paths grow ord g (graph_fuel d) [] [] nil_slice []) as [[ps h]|] eqn:F; [eauto|].
      exfalso. eapply find_total with (U := graph_names d); [exact ordered| | |exact F].
      + pose proof (walk_rules_names _ _ _ _ names_ks W) as N. apply walk_rules_grown in W as [W1 W2].
        intros path k H. unfold next in H. destruct (rev path) as [|x r].
        * apply N. now apply has_true.
        * destruct (lookup x g) as [l|] eqn:E; [|contradiction].
          destruct (W2 x) as [l' [A [B C]]]; [apply has_lookup; eauto|]. apply N, C. congruence.
      + unfold graph_fuel. pose proof (missing_all (graph_names d) (fun x => mem x [])). lia.
    - exfalso. eapply walk_rules_total; [apply names_ks|exact W].
  Qed.

  Lemma edge_targets : forall x y, edge d x y <-> In y (targets d x).
  Proof.
    intros x y. unfold edge, targets. destruct (lookup x d) as [l|]; split.
    - intros [l' [E H]]. congruence.
    - eauto.
    - intros [l' [E H]]. discriminate.
    - intros [].
  Qed.
  Lemma edge_gedge : forall fuel g x y, walk_rules fuel d ks = Some g -> edge d x y -> gedge g x y.
  Proof.
    intros fuel g x y W H. apply walk_rules_grown in W as [W1 W2].
    assert (has x g = true) as HX.
    { apply W1. eapply Permutation_in; [apply Permutation_sym; exact all_rules|]. apply has_true.
      apply has_lookup. destruct H as [l [H _]]. eauto. }
    destruct (W2 x HX) as [l [A [B C]]]. exists l. split; auto. apply B. now apply edge_targets.
  Qed.
  Lemma gedge_edge : forall fuel g x y, walk_rules fuel d ks = Some g -> gedge g x y -> edge d x y.
  Proof.
    intros fuel g x y W [l [L H]]. apply walk_rules_grown in W as [W1 W2].
    destruct (W2 x) as [l' [A [B C]]]; [apply has_lookup; eauto|]. apply edge_targets, B. congruence.
  Qed.

  (** A path that comes back to a name contains a cycle. *)
  Lemma chain_app : forall x p y q z, chain d x p y -> chain d y q z -> chain d x (p ++ q) z.
  Proof. induction 1; intro C; simpl; econstructor; eauto. Qed.
  Lemma gpath_chain : forall fuel g, walk_rules fuel d ks = Some g ->
    forall p, gpath g p -> forall k p2 q, p = p2 ++ k :: q -> forall z, gstep g p z -> chain d k (k :: q) z.
  Proof.
    intros fuel g W. induction 1 as [|p y G IH S]; intros k p2 q E z Z.
    - destruct p2; discriminate.
    - assert (Y : edge d y z).
      { unfold gstep in Z. rewrite rev_app_distr in Z. simpl in Z. eapply gedge_edge; eauto. }
      destruct q as [|a q] using rev_ind.
      + apply app_inj_tail in E as [_ ->]. now constructor.
      + clear IHq. rewrite app_comm_cons, app_assoc in E. apply app_inj_tail in E as [-> ->].
        change (k :: q ++ [a]) with ((k :: q) ++ [a]). eapply chain_app; [|constructor; exact Y].
        eapply IH; eauto.
  Qed.
  Lemma no_false_alarm : has_cycle grow ord ks d = Some true -> exists p, cycle d p.
  Proof.
    unfold has_cycle. destruct (walk_rules (graph_fuel d) d ks) as [g|] eqn:W; [|discriminate].
    unfold search. destruct (find_paths grow ord g (graph_fuel d) [] [] nil_slice []) as [[ps h]|] eqn:F; [|discriminate].
    intro E. injection E as E.
    assert (NE : ps <> []) by (intros ->; discriminate).
    apply find_closes in F; auto; [|constructor|constructor|tauto].
    destruct F as [p [k [P [N [I S]]]]]. apply in_split in I as [p2 [q ->]].
    exists (k :: q). split.
    - clear -N. induction p2 as [|b p2 IH]; auto. inversion N; subst. auto.
    - exists k. eapply gpath_chain; eauto.
  Qed.

  Lemma chain_steps : forall x p y, chain d x p y ->
    hd_error p = Some x /\ (forall p1 a b p2, p = p1 ++ a :: b :: p2 -> edge d a b) /\ (forall a p1, p = p1 ++ [a] -> edge d a y).
  Proof.
    induction 1 as [x y E|x y p z E C [IH1 [IH2 IH3]]]; simpl.
    - split; auto. split.
      + intros p1 a b p2 H. destruct p1 as [|? [|]]; discriminate.
      + intros a p1 H. destruct p1 as [|? [|]]; try discriminate. now injection H as <-.
    - split; auto. split.
      + intros p1 a b p2 H. destruct p1 as [|c p1].
        * injection H as <- ->. simpl in IH1. injection IH1 as <-. exact E.
        * injection H as <- ->. eauto.
      + intros a p1 H. destruct p1 as [|c p1].
        * injection H as <- ->. discriminate.
        * injection H as <- ->. eauto.
  Qed.
  Lemma edge_rule : forall x y, edge d x y -> In x ks.
  Proof.
    intros x y [l [H _]]. eapply Permutation_in; [apply Permutation_sym; exact all_rules|].
    apply has_true, has_lookup. eauto.
  Qed.
  Lemma chain_rules : forall x p y, chain d x p y -> forall z, In z p -> In z ks.
  Proof. induction 1; intros w [<-|W]; eauto using edge_rule; contradiction. Qed.

  Lemma full_cycle_found : forall p, ~ In ""%string (keys d) -> cycle d p -> full grow (length p) ->
    has_cycle grow ord ks d = Some true.
  Proof.
    intros p NE [ND [x C]] F.
    destruct has_cycle_answers as [b E]. rewrite E. f_equal. revert E.
    unfold has_cycle. destruct (walk_rules (graph_fuel d) d ks) as [g|] eqn:W; [|discriminate].
    destruct (chain_steps _ _ _ C) as [C1 [C2 C3]]. destruct p as [|y p]; [discriminate|]. injection C1 as ->.
    eapply search_full with (c := x :: p) (x := x) (p := p); auto.
    - intro I. apply NE. eapply Permutation_in; [exact all_rules|]. eapply chain_rules; eauto.
    - intros p0 k q Q NP. destruct p0 as [|a p0] using rev_ind; [contradiction|]. clear IHp0.
      unfold gstep. rewrite rev_app_distr. simpl. eapply edge_gedge; eauto. eapply C2.
      rewrite Q, <- app_assoc. reflexivity.
    - intros k K. simpl in K. injection K as <-. destruct (@exists_last _ (x :: p)) as [r [a R]]; [discriminate|].
      rewrite R. unfold gstep. rewrite rev_app_distr. simpl. eapply edge_gedge; eauto.
    - now apply full_cap.
    - apply has_true. apply walk_rules_grown in W as [W1 _]. apply W1.
      eapply chain_rules; [exact C|]. now left.
  Qed.
End Check.

Lemma full_succ : forall n, full S n.
Proof. induction n; constructor. auto. Qed.
Lemma full_doubling : forall k, full doubling (2 ^ k).
Proof.
  induction k as [|k IH].
  - change (2 ^ 0) with (doubling 0). repeat constructor.
  - replace (2 ^ S k) with (doubling (2 ^ k)); [constructor; auto|].
    unfold doubling. destruct (Nat.eqb_spec (2 ^ k) 0) as [E|E].
    + exfalso. revert E. apply Nat.pow_nonzero. discriminate.
    + simpl. lia.
Qed.
Lemma doubling_grows : forall n, n < doubling n.
Proof. intro n. unfold doubling. destruct (Nat.eqb_spec n 0); lia. Qed.
