(** Cut point insertion: proofs. *)
From Verif Require Import Base Scanner Syntax Engine Resolve Compile Parse PegSpec DerivSpec CutSpec ApiSpec
  DerivProofs ApiProofs CutPoints CutPointSpec.

(** * Counting *)

Lemma get_add : forall x y n m, get_count x (add_count y n m) = get_count x m + (if beqb x y then n else 0).
Proof.
  intros x y n. induction m as [|[z k] m IH]; simpl.
  - destruct (beqb x y); auto.
  - destruct (beqb y z) eqn:E; simpl.
    + apply beqb_eq in E. subst z. destruct (beqb x y); lia.
    + destruct (beqb x z) eqn:F; auto. apply beqb_eq in F. subst z.
      destruct (beqb x y) eqn:G; try lia. apply beqb_eq in G. subst y. rewrite beqb_refl in E. discriminate.
Qed.
Definition distinct (m : counts) : Prop := NoDup (map fst m).
Lemma add_keys : forall y n m z, In z (map fst (add_count y n m)) <-> z = y \/ In z (map fst m).
Proof.
  intros y n. induction m as [|[k v] m IH]; simpl; intros z.
  - intuition congruence.
  - destruct (beqb y k) eqn:E; simpl.
    + apply beqb_eq in E. subst. intuition congruence.
    + rewrite IH. intuition congruence.
Qed.
Lemma add_distinct : forall y n m, distinct m -> distinct (add_count y n m).
Proof.
  unfold distinct. intros y n. induction m as [|[k v] m IH]; simpl; intros D.
  - constructor; [simpl; tauto|constructor].
  - inversion D as [|? ? N D']; subst. destruct (beqb y k) eqn:E; simpl.
    + constructor; auto.
    + constructor; auto. rewrite add_keys. intros [->|I]; auto. rewrite beqb_refl in E. discriminate.
Qed.
Lemma merge_distinct : forall b a, distinct a -> distinct (merge a b).
Proof. induction b as [|[y n] b IH]; simpl; intros a D; auto. apply IH. now apply add_distinct. Qed.
Lemma get_absent : forall x m, ~ In x (map fst m) -> get_count x m = 0.
Proof.
  induction m as [|[y n] m IH]; simpl; intros N; auto. destruct (beqb x y) eqn:E.
  - apply beqb_eq in E. subst. exfalso. auto.
  - apply IH. auto.
Qed.
Lemma get_merge : forall x b a, distinct b -> get_count x (merge a b) = get_count x a + get_count x b.
Proof.
  intros x. unfold merge, distinct. induction b as [|[y n] b IH]; simpl; intros a D; [lia|].
  inversion D as [|? ? N D']; subst. rewrite IH by auto. rewrite get_add.
  destruct (beqb x y) eqn:E; [|lia]. apply beqb_eq in E. subst. rewrite (get_absent y b) by auto. lia.
Qed.

Lemma times_app : forall x a b, times_in x (a ++ b) = times_in x a + times_in x b.
Proof. intros. apply count_occ_app. Qed.

(** [counts_as m l]: the map holds the number of occurrences in [l]. *)
Definition counts_as (m : counts) (l : list bytes) : Prop :=
  distinct m /\ forall x, get_count x m = times_in x l.
Lemma counts_nil : counts_as [] [].
Proof. split; [constructor|auto]. Qed.
Lemma counts_merge : forall a b la lb, counts_as a la -> counts_as b lb -> counts_as (merge a b) (la ++ lb).
Proof.
  intros a b la lb [Da Ca] [Db Cb]. split; [apply merge_distinct; auto|]. intros x.
  rewrite get_merge, times_app, Ca, Cb by auto. auto.
Qed.
Lemma counts_one : forall s, counts_as (add_count s 1 []) [s].
Proof.
  intros s. split; [apply add_distinct; constructor|]. intros x. rewrite get_add. unfold times_in. simpl.
  destruct (beq_dec s x) as [->|N]; [rewrite beqb_refl; auto|].
  destruct (beqb x s) eqn:E; auto. apply beqb_eq in E. congruence.
Qed.
Lemma counts_fold : forall A (f : A -> counts) (w : A -> list bytes) l, Forall (fun t => counts_as (f t) (w t)) l ->
  forall out lo, counts_as out lo -> counts_as (fold_left (fun m t => merge m (f t)) l out) (lo ++ flat_map w l).
Proof.
  induction 1 as [|t l C F IH]; simpl; intros out lo O; [rewrite app_nil_r; auto|].
  rewrite app_assoc. apply IH. now apply counts_merge.
Qed.
Lemma get_In : forall m x n, distinct m -> In (x, n) m -> get_count x m = n.
Proof.
  unfold distinct. induction m as [|[y k] m IH]; simpl; intros x n D I; [contradiction|]. inversion D as [|? ? N D']; subst.
  destruct I as [Q|I]; [inversion Q; subst; rewrite beqb_refl; auto|].
  destruct (beqb x y) eqn:E; [|auto]. apply beqb_eq in E. subst. exfalso. apply N. apply in_map_iff. exists (y, n). auto.
Qed.
Lemma get_pos : forall m x n, get_count x m = S n -> In (x, S n) m.
Proof.
  induction m as [|[y k] m IH]; simpl; intros x n G; [discriminate|].
  destruct (beqb x y) eqn:E; [apply beqb_eq in E; subst; auto|auto].
Qed.
Lemma uniques_in : forall m l, counts_as m l -> forall x, In x (uniques m) <-> times_in x l = 1.
Proof.
  intros m l [D C] x. unfold uniques. rewrite in_map_iff. rewrite <- C. split.
  - intros ([y n] & <- & I). apply filter_In in I as [I Q]. apply Nat.eqb_eq in Q. simpl in Q. subst. eapply get_In; eauto.
  - intros G. exists (x, 1). split; auto. apply filter_In. split; auto. eapply get_pos; eauto.
Qed.
Lemma uniques_nodup : forall m, distinct m -> NoDup (uniques m).
Proof.
  unfold distinct, uniques. induction m as [|[y n] m IH]; simpl; intros D; [constructor|]. inversion D as [|? ? N D']; subst.
  destruct (Nat.eqb n 1); simpl; auto. constructor; auto. rewrite in_map_iff. intros ([z k] & Q & I). simpl in Q. subst.
  apply filter_In in I as [I _]. apply N. apply in_map_iff. exists (y, k). auto.
Qed.
Lemma times_filter : forall p l x, times_in x (filter p l) = if p x then times_in x l else 0.
Proof.
  intros p l x. unfold times_in. induction l as [|y l IH]; simpl; [destruct (p x); auto|].
  destruct (p y) eqn:P; simpl.
  - destruct (beq_dec y x) as [->|N]; auto. rewrite IH, P. auto.
  - rewrite IH. destruct (beq_dec y x) as [->|N]; auto. rewrite P. auto.
Qed.
Lemma counts_singles : forall m l, counts_as m l -> counts_as (map (fun x => (x, 1)) (uniques m)) (singles l).
Proof.
  intros m l C. assert (K : map fst (map (fun x : bytes => (x, 1)) (uniques m)) = uniques m).
  { rewrite map_map. apply map_id. }
  split; [unfold distinct; rewrite K; apply uniques_nodup; apply C|].
  intros x. unfold singles. rewrite times_filter. pose proof (uniques_in m l C x) as U.
  destruct (Nat.eqb (times_in x l) 1) eqn:Q.
  - apply Nat.eqb_eq in Q. rewrite Q. apply get_In; [unfold distinct; rewrite K; apply uniques_nodup; apply C|].
    apply in_map_iff. exists x. split; auto. apply U. auto.
  - apply Nat.eqb_neq in Q. apply get_absent. rewrite K. intros I. apply Q, U, I.
Qed.

Lemma merge_nil_l : forall b lb, counts_as b lb -> counts_as (merge [] b) lb.
Proof. intros b lb C. apply (counts_merge [] b [] lb); auto using counts_nil. Qed.
Lemma for_term_counts : forall t, counts_as (for_term t) (written t).
Proof.
  induction t using term_ind'; simpl; auto using counts_nil, counts_one.
  - apply counts_one.
  - destruct d; auto using counts_nil. apply counts_one.
  - apply (counts_fold _ for_term written ts H [] []). apply counts_nil.
  - apply (counts_fold _ for_term written ts H [] []). apply counts_nil.
  - apply (counts_fold _ for_term written ts H [] []). apply counts_nil.
  - destruct cs; [rewrite app_assoc; apply counts_merge; auto|rewrite app_nil_r]; (apply counts_merge; [apply merge_nil_l|]; auto).
  - now apply merge_nil_l.
  - now apply merge_nil_l.
  - apply counts_merge; [now apply merge_nil_l|]. apply counts_singles.
    apply (counts_fold _ (fun kv => for_term (snd kv)) (fun kv => written (snd kv)) g H [] []). apply counts_nil.
  - now apply merge_nil_l.
Qed.
Theorem unique_strings : forall g x, In x (find_unique_strings g) <-> times_in x (written_grammar g) = 1.
Proof.
  intros g x. unfold find_unique_strings. apply uniques_in.
  apply (counts_fold _ (fun kv => for_term (snd kv)) (fun kv => written (snd kv)) g) with (lo := []); [|apply counts_nil].
  apply Forall_forall. intros kv _. apply for_term_counts.
Qed.

Lemma flat_map_ext_in' : forall A B (f g : A -> list B) l, (forall a, In a l -> f a = g a) -> flat_map f l = flat_map g l.
Proof. induction l as [|a l IH]; simpl; intros H; auto. rewrite H, IH; auto. Qed.
Lemma flat_written : forall t, flat t = true -> written t = literals t.
Proof.
  induction t using term_ind'; simpl; intros F; auto; try discriminate;
    try (apply flat_map_ext_in'; intros a I; rewrite forallb_forall in F; rewrite Forall_forall in H; apply H; auto).
  destruct cs; simpl in F; rewrite !andb_true_iff in F; [destruct F; discriminate|]. destruct F as [[F1 F2] _].
  rewrite IHt1, IHt2, app_nil_r by auto. auto.
Qed.
Theorem unique_strings_flat : forall g x, flat_grammar g = true ->
  (In x (find_unique_strings g) <-> times_in x (literals_grammar g) = 1).
Proof.
  intros g x F. rewrite unique_strings. unfold written_grammar, literals_grammar.
  rewrite (flat_map_ext_in' _ _ (fun kv => written (snd kv)) (fun kv => literals (snd kv))); [tauto|].
  intros kv I. apply flat_written. unfold flat_grammar in F. rewrite forallb_forall in F. now apply F.
Qed.

(** * What is inserted *)

Lemma existsb_beqb : forall x l, existsb (beqb x) l = true <-> In x l.
Proof.
  intros x l. rewrite existsb_exists. split.
  - intros (y & I & E). apply beqb_eq in E. subst. auto.
  - intros I. exists x. split; auto. apply beqb_refl.
Qed.
Lemma Forall2_map_r : forall A B (R : A -> B -> Prop) (f : A -> B) l, Forall (fun a => R a (f a)) l -> Forall2 R l (map f l).
Proof. induction 1; simpl; constructor; auto. Qed.
Lemma fix_marked : forall U l, (forall x, In x l <-> U x) -> forall t, marked U t (fix_term (cut_callback l) true t).
Proof.
  intros U l UL. induction t using term_ind'; simpl; try (constructor; auto; fail);
    try (constructor; apply Forall2_map_r; auto; fail).
  - destruct (existsb (beqb s) l) eqn:E.
    + constructor. apply UL. now apply existsb_beqb.
    + constructor. intros I. apply UL, existsb_beqb in I. congruence.
  - constructor; auto. apply Forall2_map_r. eapply Forall_impl; [|exact H]. simpl. auto.
Qed.
Theorem insert_marked : forall g, marked_grammar (fun x => times_in x (written_grammar g) = 1) g (insert_cut_points g).
Proof.
  intros g. unfold marked_grammar, insert_cut_points, rebuild_grammar. apply Forall2_map_r. apply Forall_forall. intros kv _.
  simpl. split; auto. apply fix_marked. apply unique_strings.
Qed.

Lemma marked_erase : forall U t t', marked U t t' -> erase t' = erase t.
Proof.
  intros U. fix IH 3. intros t t' M. destruct M; simpl; auto.
  - f_equal. induction H as [|a b l m Q F IHl]; simpl; [auto|rewrite (IH _ _ Q), IHl; auto].
  - f_equal. induction H as [|a b l m Q F IHl]; simpl; [auto|rewrite (IH _ _ Q), IHl; auto].
  - f_equal. induction H as [|a b l m Q F IHl]; simpl; [auto|rewrite (IH _ _ Q), IHl; auto].
  - rewrite (IH _ _ M1), (IH _ _ M2). auto.
  - rewrite (IH _ _ M). auto.
  - rewrite (IH _ _ M). auto.
  - rewrite (IH _ _ M). f_equal. clear M. induction H as [|a b l m Q F IHl]; simpl; [auto|].
    destruct Q as [Q1 Q2]. rewrite (IH _ _ Q2), IHl, Q1. auto.
Qed.
Theorem insert_erase : forall g, erase_grammar (insert_cut_points g) = erase_grammar g.
Proof.
  intros g. pose proof (insert_marked g) as M. revert M. generalize (insert_cut_points g).
  generalize (fun x => times_in x (written_grammar g) = 1). unfold marked_grammar, erase_grammar.
  intros U g' M. induction M as [|kv kv' l l' [K M] F IH]; simpl; auto.
  rewrite (marked_erase _ _ _ M), IH, K. auto.
Qed.

(** * Map order *)

Lemma written_perm : forall g g' x, Permutation g g' -> times_in x (written_grammar g) = times_in x (written_grammar g').
Proof.
  intros g g' x P. unfold written_grammar.
  induction P as [|kv g g' P IH|kv kv2 g|g g' g'' P1 IH1 P2 IH2]; simpl; rewrite ?times_app; try lia.
Qed.
Lemma fix_ext : forall l l', (forall x, In x l <-> In x l') -> forall t,
  fix_term (cut_callback l) true t = fix_term (cut_callback l') true t.
Proof.
  intros l l' Q. induction t using term_ind'; simpl; auto; try congruence;
    try (f_equal; apply map_ext_in; rewrite Forall_forall in H; auto; fail).
  - replace (existsb (beqb s) l') with (existsb (beqb s) l); auto.
    apply eq_true_iff_eq. rewrite !existsb_beqb. auto.
  - rewrite IHt. f_equal. apply map_ext_in. rewrite Forall_forall in H. intros kv I. rewrite (H kv I). auto.
Qed.
Theorem insert_perm : forall g g', Permutation g g' -> Permutation (insert_cut_points g) (insert_cut_points g').
Proof.
  intros g g' P. unfold insert_cut_points, rebuild_grammar.
  rewrite (map_ext (fun kv : string * term => (fst kv, fix_term (cut_callback (find_unique_strings g')) true (snd kv)))
                   (fun kv => (fst kv, fix_term (cut_callback (find_unique_strings g)) true (snd kv)))).
  - now apply Permutation_map.
  - intros kv. f_equal. apply fix_ext. intros x. rewrite !unique_strings, (written_perm g g') by auto. tauto.
Qed.

(** * Parsing with inserted cut points *)

Lemma marked_keeps : forall U refs t t', marked U t t' ->
  (no_stack t = true -> no_stack t' = true) /\ (plain t = true -> plain t' = true) /\
  (hooked refs t = true -> hooked refs t' = true) /\ headrule t' = headrule t /\ is_alias t' = is_alias t.
Proof.
  intros U refs. fix IH 3. intros t t' M.
  assert (LS : forall l m (f : term -> bool), Forall2 (marked U) l m ->
            (forall a b, marked U a b -> f a = true -> f b = true) -> forallb f l = true -> forallb f m = true).
  { intros l m f F K. induction F as [|a b l m Q F IHl]; simpl; auto. rewrite !andb_true_iff. intros [A B]. split; eauto. }
  destruct M; simpl; auto 10.
  - assert (IH' : forall l m, Forall2 (marked U) l m -> 
       (forallb no_stack l = true -> forallb no_stack m = true) /\ (forallb plain l = true -> forallb plain m = true) /\
       (forallb (hooked refs) l = true -> forallb (hooked refs) m = true)).
    { clear - IH. intros l m F. induction F as [|a b l m Q F IHl]; simpl; auto. rewrite !andb_true_iff.
      destruct (IH _ _ Q) as (A & B & C & _). destruct IHl as (A' & B' & C'). tauto. }
    destruct (IH' _ _ H) as (A & B & C). auto 10.
  - assert (IH' : forall l m, Forall2 (marked U) l m -> 
       (forallb no_stack l = true -> forallb no_stack m = true) /\ (forallb plain l = true -> forallb plain m = true) /\
       (forallb (hooked refs) l = true -> forallb (hooked refs) m = true)).
    { clear - IH. intros l m F. induction F as [|a b l m Q F IHl]; simpl; auto. rewrite !andb_true_iff.
      destruct (IH _ _ Q) as (A & B & C & _). destruct IHl as (A' & B' & C'). tauto. }
    destruct (IH' _ _ H) as (A & B & C). auto 10.
  - assert (IH' : forall l m, Forall2 (marked U) l m -> 
       (forallb plain l = true -> forallb plain m = true) /\
       (forallb (hooked refs) l = true -> forallb (hooked refs) m = true)).
    { clear - IH. intros l m F. induction F as [|a b l m Q F IHl]; simpl; auto. rewrite !andb_true_iff.
      destruct (IH _ _ Q) as (_ & B & C & _). destruct IHl as (B' & C'). tauto. }
    destruct (IH' _ _ H) as (B & C). auto 10.
  - destruct (IH _ _ M1) as (A & B & C & _). destruct (IH _ _ M2) as (A' & B' & C' & _).
    rewrite !andb_true_iff. tauto.
  - destruct (IH _ _ M) as (A & B & C & _). auto 10.
  - destruct (IH _ _ M) as (A & B & C & D & _). auto 10.
  - destruct (IH _ _ M) as (A & B & C & D & _).
    assert (IH' : (forallb (fun kv => no_stack (snd kv)) g = true -> forallb (fun kv => no_stack (snd kv)) g' = true) /\
       (forallb (fun kv => plain (snd kv) && (is_alias (snd kv) || negb (headrule (snd kv)))) g = true ->
        forallb (fun kv => plain (snd kv) && (is_alias (snd kv) || negb (headrule (snd kv)))) g' = true) /\
       (forallb (fun kv => hooked refs (snd kv)) g = true -> forallb (fun kv => hooked refs (snd kv)) g' = true)).
    { clear - IH H. induction H as [|a b l m [_ Q] F IHl]; simpl; auto.
      destruct (IH _ _ Q) as (A & B & C & D & E). destruct IHl as (A' & B' & C'). rewrite D, E, !andb_true_iff.
      split; [|split].
      - intros [X Y]; auto.
      - intros [[X Z] Y]; auto.
      - intros [X Y]; auto. }
    destruct IH' as (A' & B' & C'). rewrite !andb_true_iff. tauto.
  - destruct (IH _ _ M) as (A & B & C & D & _). rewrite D, !andb_true_iff. tauto.
Qed.

Lemma marked_same : forall U t t', marked U t t' -> (forall x, In x (literals t) -> ~ U x) -> t' = t.
Proof.
  intros U. fix IH 3. intros t t' M N. destruct M; simpl in N; auto.
  - exfalso. apply (N s); auto.
  - f_equal. induction H as [|a b l m Q F IHl]; [auto|]. simpl in N. rewrite (IH _ _ Q), IHl; auto; intros; apply N; apply in_or_app; auto.
  - f_equal. induction H as [|a b l m Q F IHl]; [auto|]. simpl in N. rewrite (IH _ _ Q), IHl; auto; intros; apply N; apply in_or_app; auto.
  - f_equal. induction H as [|a b l m Q F IHl]; [auto|]. simpl in N. rewrite (IH _ _ Q), IHl; auto; intros; apply N; apply in_or_app; auto.
  - rewrite (IH _ _ M1), (IH _ _ M2); auto; intros; apply N; apply in_or_app; auto.
  - rewrite (IH _ _ M); auto.
  - rewrite (IH _ _ M); auto.
  - rewrite (IH _ _ M) by (intros; apply N; apply in_or_app; auto). f_equal.
    assert (N' : forall x, In x (flat_map (fun kv => literals (snd kv)) g) -> ~ U x) by (intros; apply N; apply in_or_app; auto).
    clear - IH H N'. induction H as [|[k a] [k' b] l m [K Q] F IHl]; [auto|]. simpl in *. subst.
    rewrite (IH _ _ Q), IHl; auto; intros; apply N'; apply in_or_app; auto.
  - rewrite (IH _ _ M); auto.
Qed.

Lemma marked_wrap : forall U g g', Forall2 (fun kv kv' : string * term => fst kv' = fst kv /\ marked U (snd kv) (snd kv')) g g' ->
  (forall kv, In kv g -> no_cut (snd kv) = true) ->
  (forall w x, In (WrapRE, w) g -> In x (literals w) -> ~ U x) -> wrap_uncut g' = true.
Proof.
  intros U g g' F NC N. unfold wrap_uncut. destruct (lookup WrapRE g') as [w'|] eqn:L; auto.
  apply lookup_In in L.
  assert (X : exists w, In (WrapRE, w) g /\ marked U w w').
  { clear - F L. induction F as [|[k a] [k' b] l m [K Q] F IH]; simpl in *; [contradiction|]. subst.
    destruct L as [E|L]; [inversion E; subst; eauto|]. destruct (IH L) as (w & I & M). eauto. }
  destruct X as (w & I & M). rewrite (marked_same _ _ _ M) by (intros x; apply (N w x I)). apply (NC _ I).
Qed.

Lemma no_cut_tidy' : forall t, no_cut t = true -> tidy t = true.
Proof.
  induction t using term_ind'; simpl; intros N; auto; try discriminate;
    try (apply forallb_forall; rewrite forallb_forall in N; rewrite Forall_forall in H; auto; fail).
  - rewrite andb_true_iff in *. tauto.
  - apply andb_true_iff in N as [N1 N2]. rewrite IHt by auto. simpl.
    assert (X : forall kv, In kv g -> no_cut (snd kv) = true) by (apply forallb_forall; auto).
    rewrite Forall_forall in H. apply andb_true_iff. split.
    + apply forallb_forall. intros kv I. apply H; auto.
    + unfold wrap_uncut. destruct (lookup WrapRE g) eqn:L; auto. apply lookup_In in L. apply (X _ L).
Qed.

Lemma marked_tidy : forall U t t', marked U t t' -> no_cut t = true ->
  (forall w x, In w (wraps t) -> In x (literals w) -> ~ U x) -> tidy t' = true.
Proof.
  intros U. fix IH 3. intros t t' M NC N. destruct M; simpl in NC, N; simpl; auto; try discriminate.
  - now apply no_cut_tidy'.
  - induction H as [|a b l m Q F IHl]; [auto|]. simpl in *. apply andb_true_iff in NC as [N1 N2].
    rewrite (IH _ _ Q), IHl; auto; intros w x I; apply N; apply in_or_app; auto.
  - induction H as [|a b l m Q F IHl]; [auto|]. simpl in *. apply andb_true_iff in NC as [N1 N2].
    rewrite (IH _ _ Q), IHl; auto; intros w x I; apply N; apply in_or_app; auto.
  - induction H as [|a b l m Q F IHl]; [auto|]. simpl in *. apply andb_true_iff in NC as [N1 N2].
    rewrite (IH _ _ Q), IHl; auto; intros w x I; apply N; apply in_or_app; auto.
  - apply andb_true_iff in NC as [N1 N2]. rewrite (IH _ _ M1), (IH _ _ M2); auto; intros w x I; apply N; apply in_or_app; auto.
  - apply (IH _ _ M NC N).
  - apply (IH _ _ M NC N).
  - apply andb_true_iff in NC as [N1 N2].
    rewrite (IH _ _ M N1) by (intros w x I; apply N; apply in_or_app; auto). simpl.
    assert (N' : forall w x, In w (flat_map (fun kv => (if String.eqb (fst kv) WrapRE then [snd kv] else []) ++ wraps (snd kv)) g) ->
                 In x (literals w) -> ~ U x) by (intros w x I; apply N; apply in_or_app; auto).
    apply andb_true_iff. split.
    + clear - IH H N' N2. induction H as [|a b l m [K Q] F IHl]; [auto|]. simpl in *. apply andb_true_iff in N2 as [N1 N2].
      rewrite (IH _ _ Q), IHl; auto; intros w x I; apply N'; apply in_or_app; auto. left. apply in_or_app. auto.
    + apply (marked_wrap U g g' H); [apply forallb_forall; auto|]. intros w x I. apply N'.
      apply in_flat_map. exists (WrapRE, w). simpl. auto.
Qed.

Lemma marked_grammar_keeps : forall U refs g g', marked_grammar U g g' -> readable g -> hooked_grammar refs g = true ->
  readable g' /\ hooked_grammar refs g' = true.
Proof.
  intros U refs g g' M [NS PL] HK. unfold readable, no_stack_grammar, plain_grammar, hooked_grammar, marked_grammar in *.
  induction M as [|a b l m [K Q] F IH]; simpl in *; auto. rewrite andb_true_iff in *.
  destruct (marked_keeps U refs _ _ Q) as (A & B & C & D & E). rewrite D, E. rewrite !andb_true_iff in *. tauto.
Qed.
Lemma erase_id_grammar : forall g, no_cut_grammar g = true -> erase_grammar g = g.
Proof.
  intros g N. unfold erase_grammar. apply map_id_in. intros [k t] I. simpl. unfold no_cut_grammar in N.
  rewrite forallb_forall in N. rewrite erase_id; auto. apply (N _ I).
Qed.

Lemma marked_grammar_tidy : forall U g g', marked_grammar U g g' -> no_cut_grammar g = true ->
  (forall w x, In w (wraps_grammar g) -> In x (literals w) -> ~ U x) -> forallb (fun kv => tidy (snd kv)) g' = true.
Proof.
  unfold marked_grammar, no_cut_grammar, wraps_grammar. intros U g g' M NC WU.
  induction M as [|a b l m [K Q] F IH]; simpl in *; auto. apply andb_true_iff in NC as [N1 N2].
  rewrite (marked_tidy _ _ _ Q), IH; auto; intros w x I; apply WU; apply in_or_app; auto. left. apply in_or_app. auto.
Qed.

(** What a grammar parses with the inserted cut points it parses the same way without. *)
Theorem insertion_prunes : forall c g ps ps' refs f r s, cf_esc c = None ->
  no_cut_grammar g = true -> readable g -> hooked_grammar refs g = true -> wraps_unmarked g ->
  compile (cf_eng c) g = COk ps -> compile (cf_eng c) (insert_cut_points g) = COk ps' ->
  (refs = true -> forall x, re_valid (cf_eng c) (anchor ++ group (quote_meta x)) = true) ->
  drawn_ok (cf_rnd c) (draws c f ps' r s) ->
  exists f0, forall f' rnd, f0 <= f' ->
  match parse_rule c f ps' r s with
  | (ROk v, s') => parse_rule (plain_call (cf_eng c) rnd) f' ps r s = (ROk v, s')
  | (RErr (EUnconsumed s1 v), s') => parse_rule (plain_call (cf_eng c) rnd) f' ps r s = (RErr (EUnconsumed s' v), s')
  | (RErr (EParse _), _) => exists rule s', parse_rule (plain_call (cf_eng c) rnd) f' ps r s = (RErr (EParse rule), s')
  | _ => True
  end.
Proof.
  intros c g ps ps' refs f r s NE NC RD HK WU C C' V DR.
  pose proof (insert_marked g) as M. destruct (marked_grammar_keeps _ refs _ _ M RD HK) as [RD' HK'].
  apply (cuts_prune c (insert_cut_points g) ps' ps refs f r s); auto.
  - rewrite insert_erase, erase_id_grammar; auto.
  - unfold tidy_grammar. apply andb_true_iff. split.
    + apply (marked_grammar_tidy _ _ _ M NC WU).
    + apply (marked_wrap _ _ _ M).
      * unfold no_cut_grammar in NC. apply forallb_forall. auto.
      * intros w x I. apply WU. unfold wraps_grammar. apply in_flat_map. exists (WrapRE, w). simpl. auto.
Qed.
