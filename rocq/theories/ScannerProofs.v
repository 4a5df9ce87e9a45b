From Verif Require Import Base Scanner ScannerSpec.
Local Open Scope Z_scope.

Lemma go_slice_ok : forall b i n, (i + n <= length b)%nat ->
  go_slice b (Z.of_nat i) (Z.of_nat i + Z.of_nat n) = Some (firstn n (skipn i b)).
Proof.
  intros b i n H. unfold go_slice, blen.
  replace (0 <=? Z.of_nat i) with true by (symmetry; apply Z.leb_le; lia).
  replace (Z.of_nat i <=? Z.of_nat i + Z.of_nat n) with true by (symmetry; apply Z.leb_le; lia).
  replace (Z.of_nat i + Z.of_nat n <=? Z.of_nat (length b)) with true by (symmetry; apply Z.leb_le; lia).
  simpl. f_equal. f_equal; [lia|]. f_equal. lia.
Qed.

Lemma src_slice_ok : forall o i n, (i + n <= length (origin o))%nat ->
  src_slice o (Z.of_nat i) (Z.of_nat n) = Some (firstn n (skipn i (origin o))).
Proof.
  intros o i n H. unfold src_slice, blen.
  replace (Z.of_nat i <? 0) with false by (symmetry; apply Z.ltb_ge; lia).
  replace (Z.of_nat i + Z.of_nat n <? 0) with false by (symmetry; apply Z.ltb_ge; lia).
  replace (Z.of_nat i >? Z.of_nat (length (origin o))) with false
    by (symmetry; rewrite Z.gtb_ltb; apply Z.ltb_ge; lia).
  replace (Z.of_nat i + Z.of_nat n >? Z.of_nat (length (origin o))) with false
    by (symmetry; rewrite Z.gtb_ltb; apply Z.ltb_ge; lia).
  simpl. now apply go_slice_ok.
Qed.

Lemma window_slice : forall s o i n, window s o i n ->
  sslice s = Some (firstn n (skipn i (origin o))).
Proof.
  intros s o i n (Hs & Hi & Hn & H). unfold sslice. rewrite Hs, Hi, Hn. now apply src_slice_ok.
Qed.

Lemma window_string : forall s o i n, window s o i n ->
  sstring s = Some (firstn n (skipn i (origin o))).
Proof.
  intros s o i n W. unfold sstring. destruct W as (Hs & W). rewrite Hs.
  eapply window_slice. split; eauto.
Qed.

Lemma range_text_sub : forall b i n t, range_text b i n t <->
  ((i + n <= length b)%nat /\ t = firstn n (skipn i b)).
Proof.
  intros b i n t. split.
  - intros (p & q & -> & <- & <-). split.
    + rewrite !app_length. lia.
    + rewrite skipn_app, skipn_all, Nat.sub_diag. simpl.
      rewrite firstn_app, firstn_all, Nat.sub_diag. simpl. now rewrite app_nil_r.
  - intros (H & ->). exists (firstn i b), (skipn n (skipn i b)). repeat split.
    + now rewrite firstn_skipn, firstn_skipn.
    + rewrite firstn_length. lia.
    + rewrite firstn_length, skipn_length. lia.
Qed.

Lemma window_shows : forall s o i n t, window s o i n ->
  (shows s t <-> range_text (origin o) i n t).
Proof.
  intros s o i n t W. unfold shows. rewrite (window_string _ _ _ _ W), range_text_sub.
  destruct W as (_ & _ & _ & H). split.
  - intro E. inversion E. auto.
  - intros (_ & ->). reflexivity.
Qed.

Lemma firstn_split : forall (A : Type) (i n : nat) (l : list A), (i <= n)%nat ->
  firstn n l = firstn i l ++ firstn (n - i) (skipn i l).
Proof.
  induction i as [|i IH]; intros n l H; simpl.
  - now rewrite Nat.sub_0_r.
  - destruct n as [|n]; [lia|]. destruct l as [|x l]; simpl.
    + now destruct (n - i)%nat.
    + f_equal. apply IH. lia.
Qed.

Lemma skipn_skipn' : forall (A : Type) (i j : nat) (l : list A), skipn i (skipn j l) = skipn (j + i) l.
Proof.
  intros A i j. induction j as [|j IH]; intros l; simpl; auto.
  destruct l; simpl; auto. now rewrite skipn_nil.
Qed.

(** C01 *)
Lemma eat_splits : forall s o i n k, window s o i n -> (k <= n)%nat ->
  let (e, r) := eat s (Z.of_nat k) in
  window e o i k /\ window r o (i + k) (n - k) /\
  exists te tr, shows e te /\ shows r tr /\ shows s (te ++ tr) /\ length te = k.
Proof.
  intros s o i n k (Hs & Hi & Hn & H) Hk. unfold eat, skip.
  assert (We : window (mkScanner (src s) (start s) (Z.of_nat k)) o i k).
  { repeat split; simpl; auto. lia. }
  assert (Wr : window (mkScanner (src s) (start s + Z.of_nat k) (slen s - Z.of_nat k)) o (i + k) (n - k)).
  { repeat split; simpl; auto; lia. }
  split; [exact We|]. split; [exact Wr|].
  exists (firstn k (skipn i (origin o))), (firstn (n - k) (skipn (i + k) (origin o))).
  repeat split.
  - unfold shows. eapply window_string in We. exact We.
  - unfold shows. eapply window_string in Wr. exact Wr.
  - unfold shows. erewrite window_string by (repeat split; eauto).
    f_equal. rewrite (firstn_split _ k n) by lia. f_equal. now rewrite skipn_skipn'.
  - rewrite firstn_length, skipn_length. lia.
Qed.

(** C02 *)
Lemma eat_string_spec : forall s o i n str t, window s o i n -> shows s t ->
  (forall r, t = str ++ r ->
     exists e s', eat_string s str = Some (Some (e, s')) /\
       window e o i (length str) /\ window s' o (i + length str) (n - length str) /\
       shows e str /\ shows s' r) /\
  ((~ exists r, t = str ++ r) -> eat_string s str = Some None).
Proof.
  intros s o i n str t W Ht. unfold shows in Ht.
  assert (Hsl : sslice s = Some t).
  { rewrite (window_string _ _ _ _ W) in Ht. rewrite (window_slice _ _ _ _ W). exact Ht. }
  unfold eat_string. rewrite Hsl. split.
  - intros r ->.
    assert (P : has_prefix str (str ++ r) = true) by (apply has_prefix_iff; eauto).
    rewrite P.
    assert (Hlen : length (str ++ r) = n).
    { rewrite (window_slice _ _ _ _ W) in Hsl. inversion Hsl as [E].
      destruct W as (_ & _ & _ & H). rewrite firstn_length, skipn_length. lia. }
    assert (Hk : (length str <= n)%nat) by (rewrite app_length in Hlen; lia).
    pose proof (eat_splits s o i n (length str) W Hk) as E.
    destruct (eat s (blen str)) as [e s'] eqn:Ee. unfold blen in Ee. rewrite Ee in E.
    destruct E as (We & Ws & te & tr & Se & Sr & Sa & L).
    unfold shows in Sa. rewrite (window_string _ _ _ _ W) in Sa.
    rewrite (window_slice _ _ _ _ W) in Hsl.
    assert (Eq : str ++ r = te ++ tr) by congruence.
    assert (str = te /\ r = tr) as [-> ->].
    { apply app_inj_len; auto. }
    exists e, s'. repeat split; auto; try apply We; try apply Ws.
  - intro N. destruct (has_prefix str t) eqn:P; auto.
    apply has_prefix_iff in P. contradiction.
Qed.

(** C03 *)
Lemma last_index_from_no : forall p i acc, ~ In nl p -> last_index_from p i acc = acc.
Proof.
  induction p as [|c p IH]; intros i acc H; simpl; auto.
  destruct (Ascii.eqb c nl) eqn:E.
  - apply Ascii.eqb_eq in E. subst. exfalso. apply H. now left.
  - apply IH. intro. apply H. now right.
Qed.

Lemma last_index_from_app : forall p q i acc,
  last_index_from (p ++ q) i acc = last_index_from q (i + Z.of_nat (length p)) (last_index_from p i acc).
Proof.
  induction p as [|c p IH]; intros q i acc; simpl length.
  - simpl. f_equal. lia.
  - simpl. rewrite IH. f_equal. lia.
Qed.

Lemma last_index_split : forall b last, ~ In nl last ->
  (b = [] \/ exists b', b = b' ++ [nl]) ->
  last_index_nl (b ++ last) = Z.of_nat (length b) - 1.
Proof.
  intros b last N H. unfold last_index_nl. rewrite last_index_from_app.
  rewrite last_index_from_no by auto.
  destruct H as [->|(b' & ->)]; simpl; auto.
  rewrite last_index_from_app. simpl. rewrite app_length. simpl. lia.
Qed.

Lemma split_last_nl : forall p : bytes, exists before last,
  p = before ++ last /\ ~ In nl last /\ (before = [] \/ exists b, before = b ++ [nl]).
Proof.
  intro p. induction p as [|x p IH] using rev_ind.
  - exists [], []. simpl. repeat split; auto.
  - destruct (ascii_dec x nl) as [->|N].
    + exists (p ++ [nl]), []. rewrite app_nil_r. simpl. repeat split; auto.
      right. eauto.
    + destruct IH as (b & l & -> & Nl & Hb).
      exists b, (l ++ [x]). rewrite app_assoc. repeat split; auto.
      intro I. apply in_app_or in I as [I|[I|[]]]; auto.
Qed.

Lemma split_last_nl_unique : forall b1 l1 b2 l2, b1 ++ l1 = b2 ++ l2 ->
  ~ In nl l1 -> ~ In nl l2 ->
  (b1 = [] \/ exists b, b1 = b ++ [nl]) -> (b2 = [] \/ exists b, b2 = b ++ [nl]) ->
  b1 = b2 /\ l1 = l2.
Proof.
  intros b1 l1 b2 l2 E N1 N2 H1 H2.
  assert (L : Z.of_nat (length b1) - 1 = Z.of_nat (length b2) - 1).
  { rewrite <- (last_index_split b1 l1), <- (last_index_split b2 l2); auto. now rewrite E. }
  apply app_inj_len; auto; lia.
Qed.

Lemma count_occ_no : forall l, ~ In nl l -> count_occ ascii_dec l nl = O.
Proof. intros. now apply count_occ_not_In. Qed.

Lemma line_column_ok : forall text off, (off <= length text)%nat ->
  exists line col, line_column (firstn off text) (Z.of_nat off) = Some (line, col) /\
    is_position text off line col.
Proof.
  intros text off H. unfold line_column.
  replace 0 with (Z.of_nat 0) by reflexivity.
  replace (Z.of_nat off) with (Z.of_nat 0 + Z.of_nat off) by lia.
  rewrite go_slice_ok by (rewrite firstn_length; lia).
  simpl skipn. rewrite firstn_firstn, Nat.min_id.
  destruct (split_last_nl (firstn off text)) as (b & l & E & N & Hb).
  assert (Len : length (b ++ l) = off) by (rewrite <- E, firstn_length; lia).
  eexists _, _. split; [reflexivity|].
  exists b, l. repeat split; auto.
  - rewrite E. unfold count_nl. rewrite count_occ_app, (count_occ_no l) by auto. lia.
  - rewrite E, last_index_split by auto. rewrite app_length in Len. lia.
Qed.

Lemma position_ok : forall s o i n, window s o i n ->
  exists line col, position s = Some (line, col) /\ is_position (origin o) i line col.
Proof.
  intros s o i n (Hs & Hi & Hn & H). unfold position. rewrite Hs, Hi.
  replace (src_slice o 0 (Z.of_nat i)) with (Some (firstn i (origin o))).
  - apply line_column_ok. lia.
  - symmetry. change 0 with (Z.of_nat 0). now rewrite src_slice_ok by lia.
Qed.

Lemma is_position_unique : forall text off l1 c1 l2 c2,
  is_position text off l1 c1 -> is_position text off l2 c2 -> l1 = l2 /\ c1 = c2.
Proof.
  intros text off l1 c1 l2 c2 (b1 & t1 & E1 & _ & N1 & H1 & L1 & C1) (b2 & t2 & E2 & _ & N2 & H2 & L2 & C2).
  destruct (split_last_nl_unique b1 t1 b2 t2); auto; try congruence.
  subst. auto.
Qed.

Lemma is_position_mono : forall text o1 o2 l1 c1 l2 c2,
  is_position text o1 l1 c1 -> is_position text o2 l2 c2 -> (o1 < o2)%nat ->
  pos_lt (l1, c1) (l2, c2).
Proof.
  intros text o1 o2 l1 c1 l2 c2 (b1 & t1 & E1 & K1 & N1 & H1 & L1 & C1)
    (b2 & t2 & E2 & K2 & N2 & H2 & L2 & C2) Lt.
  assert (Sp : firstn o2 text = (b1 ++ t1) ++ firstn (o2 - o1) (skipn o1 text)).
  { rewrite <- E1. apply firstn_split. lia. }
  set (m := firstn (o2 - o1) (skipn o1 text)) in *.
  assert (Lm : length m = (o2 - o1)%nat).
  { unfold m. rewrite firstn_length, skipn_length. lia. }
  unfold pos_lt. simpl.
  destruct (in_dec ascii_dec nl m) as [I|NI].
  - left.
    assert (C : (count_occ ascii_dec (b2 ++ t2) nl = count_occ ascii_dec ((b1 ++ t1) ++ m) nl)) by congruence.
    rewrite !count_occ_app, (count_occ_no t2), (count_occ_no t1) in C by auto.
    apply (count_occ_In ascii_dec) in I. lia.
  - right.
    assert (b2 = b1 /\ t2 = t1 ++ m) as [-> ->].
    { apply split_last_nl_unique; auto.
      - rewrite <- E2, Sp. now rewrite app_assoc.
      - intro I. apply in_app_or in I as [I|I]; auto. }
    split; [lia|]. rewrite app_length in C2. lia.
Qed.

Lemma position_order : forall s1 s2 o i1 n1 i2 n2 p1 p2,
  window s1 o i1 n1 -> window s2 o i2 n2 ->
  position s1 = Some p1 -> position s2 = Some p2 ->
  (p1 = p2 <-> offset s1 = offset s2) /\ (pos_lt p1 p2 <-> offset s1 < offset s2).
Proof.
  intros s1 s2 o i1 n1 i2 n2 p1 p2 W1 W2 P1 P2.
  destruct (position_ok _ _ _ _ W1) as (l1 & c1 & E1 & I1).
  destruct (position_ok _ _ _ _ W2) as (l2 & c2 & E2 & I2).
  assert (p1 = (l1, c1)) by congruence. assert (p2 = (l2, c2)) by congruence. subst p1 p2.
  destruct W1 as (_ & S1 & _), W2 as (_ & S2 & _). unfold offset. rewrite S1, S2.
  assert (Irr : forall p, ~ pos_lt p p) by (intros p; unfold pos_lt; lia).
  destruct (Nat.lt_trichotomy i1 i2) as [L|[E|L]].
  - pose proof (is_position_mono _ _ _ _ _ _ _ I1 I2 L) as M. split; split; intro Q; try lia; auto.
    exfalso. rewrite Q in M. eapply Irr; eauto.
  - subst i2. destruct (is_position_unique _ _ _ _ _ _ I1 I2). subst. split; split; intro Q; auto; try lia.
    exfalso. eapply Irr; eauto.
  - pose proof (is_position_mono _ _ _ _ _ _ _ I2 I1 L) as M. split; split; intro Q; try lia; auto.
    + exfalso. rewrite Q in M. eapply Irr; eauto.
    + exfalso. unfold pos_lt in *. simpl in *. lia.
Qed.

(** C04 *)
Lemma source_eqb_eq : forall a b, source_eqb a b = true <-> a = b.
Proof.
  intros [oa fa] [ob fb]. unfold source_eqb. simpl. rewrite andb_true_iff, beqb_eq, String.eqb_eq.
  split; [intros [-> ->]; auto | intro E; inversion E; auto].
Qed.

Lemma osource_eqb_eq : forall a b, osource_eqb a b = true <-> a = b.
Proof.
  intros [a|] [b|]; simpl; split; intro H; try discriminate; auto.
  - apply source_eqb_eq in H. congruence.
  - apply source_eqb_eq. congruence.
Qed.

Definition zmin_list (l : Z) (xs : list scanner) : Z := fold_left (fun a v => Z.min a (start v)) xs l.
Definition zmax_list (r : Z) (xs : list scanner) : Z := fold_left (fun a v => Z.max a (start v + slen v)) xs r.

Lemma merge_loop_spec : forall xs o l r,
  (Forall (fun v => src v = o) xs /\ merge_loop o l r xs = Some (zmin_list l xs, zmax_list r xs)) \/
  (~ Forall (fun v => src v = o) xs /\ merge_loop o l r xs = None).
Proof.
  induction xs as [|v xs IH]; intros o l r; simpl.
  - left. split; auto.
  - destruct (osource_eqb (src v) o) eqn:E; simpl.
    + apply osource_eqb_eq in E.
      assert (A1 : (if start v <? l then start v else l) = Z.min l (start v)).
      { destruct (Z.ltb_spec (start v) l); lia. }
      assert (A2 : (if start v + slen v >? r then start v + slen v else r) = Z.max r (start v + slen v)).
      { rewrite Z.gtb_ltb. destruct (Z.ltb_spec r (start v + slen v)); lia. }
      rewrite A1, A2.
      destruct (IH o (Z.min l (start v)) (Z.max r (start v + slen v))) as [[F M]|[F M]].
      * left. split; auto.
      * right. split; auto. intro F'. inversion F'. auto.
    + right. split; auto. intro F. inversion F; subst.
      assert (osource_eqb (src v) (src v) = true) by now apply osource_eqb_eq. congruence.
Qed.

Lemma zmin_list_glb : forall xs l, zmin_list l xs <= l /\ (forall v, In v xs -> zmin_list l xs <= start v) /\
  (forall b, b <= l -> (forall v, In v xs -> b <= start v) -> b <= zmin_list l xs).
Proof.
  induction xs as [|v xs IH]; intros l; simpl.
  - unfold zmin_list. simpl. split; [lia|]. split; [intros; contradiction|]. intros; lia.
  - unfold zmin_list in *. simpl. destruct (IH (Z.min l (start v))) as (A & B & C).
    repeat split.
    + lia.
    + intros w [->|I]; [lia|auto].
    + intros b Hb Hw. apply C; auto. specialize (Hw v (or_introl eq_refl)). lia.
Qed.

Lemma zmax_list_lub : forall xs r, r <= zmax_list r xs /\
  (forall v, In v xs -> start v + slen v <= zmax_list r xs) /\
  (forall b, r <= b -> (forall v, In v xs -> start v + slen v <= b) -> zmax_list r xs <= b).
Proof.
  induction xs as [|v xs IH]; intros r; simpl.
  - unfold zmax_list. simpl. split; [lia|]. split; [intros; contradiction|]. intros; lia.
  - unfold zmax_list in *. simpl. destruct (IH (Z.max r (start v + slen v))) as (A & B & C).
    repeat split.
    + lia.
    + intros w [->|I]; [lia|auto].
    + intros b Hb Hw. apply C; auto. specialize (Hw v (or_introl eq_refl)). lia.
Qed.

Lemma merge_cons2 : forall s v xs,
  (Forall (fun w => src w = src s) (v :: xs) /\
   merge_scanners (s :: v :: xs) =
     Some (mkScanner (src s) (zmin_list (start s) (v :: xs))
             (zmax_list (start s + slen s) (v :: xs) - zmin_list (start s) (v :: xs)))) \/
  (~ Forall (fun w => src w = src s) (v :: xs) /\ merge_scanners (s :: v :: xs) = None).
Proof.
  intros s v xs. unfold merge_scanners.
  destruct (merge_loop_spec (v :: xs) (src s) (start s) (start s + slen s)) as [[F M]|[F M]];
    rewrite M; [left|right]; auto.
Qed.

Lemma merge_success : forall xs,
  (exists m, merge_scanners xs = Some m) <->
  (xs <> [] /\ exists o, forall v, In v xs -> src v = o).
Proof.
  intros xs. destruct xs as [|s [|v xs]].
  - split; [intros [m H]; discriminate | intros [H _]; congruence].
  - split; [|simpl; eauto]. intros _. split; [congruence|]. exists (src s). intros w [->|[]]. auto.
  - destruct (merge_cons2 s v xs) as [[F M]|[F M]].
    + split; [|eauto]. intros _. split; [congruence|].
      exists (src s). intros w [->|I]; auto. rewrite Forall_forall in F. auto.
    + split.
      * intros [m E]. congruence.
      * intros [_ (o & H)]. exfalso. apply F. apply Forall_forall. intros w I.
        rewrite (H w), (H s); simpl; auto.
Qed.

Lemma merge_covers : forall xs m, merge_scanners xs = Some m ->
  (forall v, In v xs -> covers m v) /\
  (forall c, (forall v, In v xs -> covers c v) -> covers c m).
Proof.
  intros xs m H. destruct xs as [|s [|v xs]].
  - discriminate.
  - inversion H; subst. split.
    + intros w [->|[]]. unfold covers. lia || (repeat split; lia).
    + intros c Hc. apply Hc. now left.
  - destruct (merge_cons2 s v xs) as [[F M]|[F M]]; [|congruence].
    rewrite M in H. match type of H with Some ?t = Some _ => assert (Em : m = t) by congruence end.
    subst m. clear H M.
    destruct (zmin_list_glb (v :: xs) (start s)) as (A1 & A2 & A3).
    destruct (zmax_list_lub (v :: xs) (start s + slen s)) as (B1 & B2 & B3).
    rewrite Forall_forall in F.
    split.
    + intros w I. unfold covers; cbn [src start slen].
      destruct I as [->|I].
      * split; [auto|split; lia].
      * specialize (A2 w I). specialize (B2 w I). split; [symmetry; auto|split; lia].
    + intros c Hc. assert (Hs := Hc s (or_introl eq_refl)).
      destruct Hs as (E & Hs1 & Hs2).
      unfold covers; cbn [src start slen]. split; [exact E|split].
      * apply A3; [lia|]. intros w I. destruct (Hc w (or_intror I)) as (_ & ? & _). lia.
      * assert (zmax_list (start s + slen s) (v :: xs) <= start c + slen c); [|lia].
        apply B3; [lia|]. intros w I. destruct (Hc w (or_intror I)) as (_ & _ & ?). lia.
Qed.

Lemma covers_antisym : forall a b, covers a b -> covers b a -> a = b.
Proof.
  intros [sa ia na] [sb0 ib nb] (E & H1 & H2) (_ & H3 & H4). simpl in *. subst.
  f_equal; lia.
Qed.

Lemma merge_perm : forall xs ys, Permutation xs ys -> merge_scanners xs = merge_scanners ys.
Proof.
  intros xs ys P.
  destruct (merge_scanners xs) as [m|] eqn:E1; destruct (merge_scanners ys) as [m'|] eqn:E2; auto.
  - f_equal. destruct (merge_covers _ _ E1) as [A1 A2]. destruct (merge_covers _ _ E2) as [B1 B2].
    apply covers_antisym.
    + apply B2. intros v I. apply A1. eapply Permutation_in; [apply Permutation_sym|]; eauto.
    + apply A2. intros v I. apply B1. eapply Permutation_in; eauto.
  - exfalso. assert (H : exists m, merge_scanners xs = Some m) by eauto.
    apply merge_success in H as (N & o & H).
    assert (exists m, merge_scanners ys = Some m).
    { apply merge_success. split.
      - intros ->. apply Permutation_sym, Permutation_nil in P. auto.
      - exists o. intros v I. apply H. eapply Permutation_in; [apply Permutation_sym|]; eauto. }
    destruct H0. congruence.
  - exfalso. assert (H : exists m, merge_scanners ys = Some m) by eauto.
    apply merge_success in H as (N & o & H).
    assert (exists m, merge_scanners xs = Some m).
    { apply merge_success. split.
      - intros ->. apply Permutation_nil in P. auto.
      - exists o. intros v I. apply H. eapply Permutation_in; eauto. }
    destruct H0. congruence.
Qed.

(** C05 *)
Lemma contains_covers : forall a b, src a <> None -> src b <> None ->
  (contains a b = Some true <-> covers a b) /\ (contains a b = Some false <-> ~ covers a b).
Proof.
  intros [sa ia na] [sb0 ib nb] Ha Hb. simpl in *.
  destruct sa as [oa|]; [|congruence]. destruct sb0 as [ob|]; [|congruence].
  unfold contains, filename, covers; simpl.
  destruct (source_eqb oa ob) eqn:E.
  - apply source_eqb_eq in E. subst ob. rewrite String.eqb_refl. simpl.
    destruct (Z.leb_spec ia ib); destruct (Z.geb_spec (ia + na) (ib + nb)); simpl;
      split; split; intro Q; try discriminate; auto; try lia;
      try (intros (_ & ? & ?); lia); try (destruct Q as (_ & ? & ?); lia);
      exfalso; apply Q; repeat split; lia.
  - rewrite orb_true_r.
    assert (oa <> ob). { intro. subst. assert (source_eqb ob ob = true) by now apply source_eqb_eq. congruence. }
    split; split; intro Q; try discriminate; auto.
    + destruct Q as (Q & _). congruence.
    + intros (Q' & _). congruence.
Qed.

(** C06 *)
Lemma strip_source_spec : forall s o i n, window s o i n ->
  exists s', strip_source s = Some s' /\ sstring s' = sstring s /\ offset s' = offset s /\
    filename s' = filename s /\ slen s' = slen s /\
    (exists o', src s' = Some o' /\ sstring s = Some (origin o')) /\
    strip_source s' = Some s'.
Proof.
  intros s o i n W. pose proof (window_string _ _ _ _ W) as HS.
  destruct s as [sr st ln]. destruct W as (Hs & Hi & Hn & H). simpl in *. subst sr st ln.
  unfold strip_source, src_strip. simpl.
  rewrite src_slice_ok by lia.
  set (t := firstn n (skipn i (origin o))) in *.
  assert (Lt : length t = n) by (unfold t; rewrite firstn_length, skipn_length; lia).
  assert (R : src_slice (mkSource t (fname o)) (Z.of_nat i) (Z.of_nat n) = Some t).
  { destruct i as [|i].
    - rewrite src_slice_ok by (simpl; lia). simpl. rewrite <- Lt. now rewrite firstn_all.
    - unfold src_slice, blen. simpl origin. rewrite Lt.
      replace (Z.of_nat (S i) + Z.of_nat n >? Z.of_nat n) with true
        by (symmetry; rewrite Z.gtb_ltb; apply Z.ltb_lt; lia).
      now rewrite orb_true_r. }
  eexists. split; [reflexivity|].
  unfold sstring, sslice, offset, filename. simpl. rewrite R. simpl.
  repeat split; auto.
  exists (mkSource t (fname o)). split; auto.
Qed.

(** C07 *)
Lemma split_nl_ne : forall b, split_nl b <> [].
Proof.
  destruct b; simpl; try discriminate. destruct (Ascii.eqb a nl); try discriminate.
  destruct (split_nl b); discriminate.
Qed.

Lemma join_split : forall b, join_nl (split_nl b) = b.
Proof.
  induction b as [|c b IH]; auto. simpl split_nl.
  pose proof (split_nl_ne b) as N.
  destruct (split_nl b) as [|l ls]; [congruence|].
  destruct (Ascii.eqb c nl) eqn:E.
  - apply Ascii.eqb_eq in E. subst. reflexivity.
  - rewrite <- IH. simpl. destruct ls; auto.
Qed.

Lemma split_nl_no : forall b l, In l (split_nl b) -> ~ In nl l.
Proof.
  induction b as [|c b IH]; simpl; intros l I.
  - destruct I as [<-|[]]. auto.
  - destruct (Ascii.eqb c nl) eqn:E.
    + destruct I as [<-|I]; auto.
    + destruct (split_nl b) as [|l0 ls] eqn:S.
      * destruct I as [<-|[]]. apply Ascii.eqb_neq in E. intros [F|[]]. congruence.
      * destruct I as [<-|I].
        -- apply Ascii.eqb_neq in E. intros [F|F]; [congruence|]. eapply IH; [left|]; eauto.
        -- apply IH. now right.
Qed.

Lemma join_count : forall ls, (forall l, In l ls -> ~ In nl l) -> ls <> [] ->
  Z.of_nat (count_occ ascii_dec (join_nl ls) nl) = Z.of_nat (length ls) - 1.
Proof.
  induction ls as [|l ls IH]; intros H N; [congruence|].
  destruct ls as [|l2 ls].
  - simpl. rewrite count_occ_no; auto. apply H. now left.
  - change (join_nl (l :: l2 :: ls)) with (l ++ nl :: join_nl (l2 :: ls)).
    rewrite count_occ_app, count_occ_no by (apply H; now left).
    rewrite (count_occ_cons_eq ascii_dec (join_nl (l2 :: ls)) (eq_refl nl)).
    rewrite !Nat2Z.inj_add, Nat2Z.inj_succ, IH; [simpl length; lia | | discriminate].
    intros l' I. apply H. now right.
Qed.

Lemma join_app : forall a b, a <> [] -> b <> [] -> join_nl (a ++ b) = join_nl a ++ nl :: join_nl b.
Proof.
  induction a as [|x a IH]; intros b Na Nb; [congruence|].
  destruct a as [|y a].
  - simpl. destruct b; [congruence|]. auto.
  - assert (I := IH b ltac:(discriminate) Nb).
    change ((x :: y :: a) ++ b) with (x :: y :: (a ++ b)).
    change (join_nl (x :: y :: (a ++ b))) with (x ++ nl :: join_nl ((y :: a) ++ b)).
    rewrite I. change (join_nl (x :: y :: a)) with (x ++ nl :: join_nl (y :: a)).
    rewrite <- app_assoc. reflexivity.
Qed.

Lemma context_nolimit : forall s o i n, window s o i n ->
  exists pos above mid below, context s (-1) = Some (pos, above, mid, below) /\
    position s = Some pos /\ shows s mid /\ above ++ mid ++ below = origin o /\ length above = i.
Proof.
  intros s o i n W. destruct (position_ok _ _ _ _ W) as (l & c & HP & _).
  pose proof (window_slice _ _ _ _ W) as HS. pose proof (window_string _ _ _ _ W) as HT.
  destruct W as (Hs & Hi & Hn & H).
  unfold context. rewrite Hs, HP, HS, Hi, Hn.
  assert (A : src_slice o 0 (Z.of_nat i) = Some (firstn i (origin o))).
  { change 0 with (Z.of_nat 0). now rewrite src_slice_ok by lia. }
  assert (B : src_slice o (Z.of_nat i + Z.of_nat n) (src_length o - (Z.of_nat i + Z.of_nat n)) =
              Some (skipn (i + n) (origin o))).
  { unfold src_length, blen.
    replace (Z.of_nat i + Z.of_nat n) with (Z.of_nat (i + n)) by lia.
    replace (Z.of_nat (length (origin o)) - Z.of_nat (i + n))
      with (Z.of_nat (length (origin o) - (i + n))) by lia.
    rewrite src_slice_ok by lia. f_equal. rewrite firstn_all2; auto. rewrite skipn_length. lia. }
  rewrite A, B. simpl.
  eexists _, _, _, _. split; [reflexivity|]. repeat split; auto.
  - rewrite <- (firstn_skipn i (origin o)) at 4. f_equal.
    rewrite <- (firstn_skipn n (skipn i (origin o))) at 2. f_equal.
    now rewrite skipn_skipn'.
  - rewrite firstn_length. lia.
Qed.

Lemma context_limit : forall s o i n limit pos above mid below, window s o i n -> 0 <= limit ->
  context s (-1) = Some (pos, above, mid, below) ->
  exists above' below', context s limit = Some (pos, above', mid, below') /\
    tail_lines limit above above' /\ head_lines limit below below'.
Proof.
  intros s o i n limit pos above mid below W L C.
  unfold context in *. destruct (src s) as [o'|]; [|discriminate].
  destruct (position s) as [pos'|]; [|discriminate].
  destruct (src_slice o' 0 (start s)) as [ab|]; [|discriminate].
  destruct (src_slice o' (start s + slen s) (src_length o' - (start s + slen s))) as [be|]; [|discriminate].
  destruct (sslice s) as [mi|]; [|discriminate].
  simpl in C. inversion C; subst. clear C.
  replace (limit =? -1) with false by (symmetry; apply Z.eqb_neq; lia).
  replace (limit <? 0) with false by (symmetry; apply Z.ltb_ge; lia).
  eexists _, _. split; [reflexivity|].
  pose proof (split_nl_ne above) as Na. pose proof (split_nl_ne below) as Nb.
  pose proof (join_split above) as Ja. pose proof (join_split below) as Jb.
  pose proof (join_count _ (split_nl_no above) Na) as Ca.
  pose proof (join_count _ (split_nl_no below) Nb) as Cb.
  pose proof (split_nl_no above) as Xa. pose proof (split_nl_no below) as Xb.
  rewrite Ja in Ca. rewrite Jb in Cb.
  set (A := split_nl above) in *. set (B := split_nl below) in *.
  unfold bytes in *.
  assert (0 < length A)%nat by (destruct A; [congruence|simpl; lia]).
  assert (0 < length B)%nat by (destruct B; [congruence|simpl; lia]).
  split.
  - rewrite Z.gtb_ltb. destruct (Z.ltb_spec limit (Z.of_nat (length A))).
    + set (k := Z.to_nat (Z.of_nat (length A) - limit - 1)).
      assert (Hk : (k < length A)%nat) by (unfold k; lia).
      destruct (Nat.eq_dec k 0) as [K0|K0].
      * left. rewrite K0. simpl. split; auto. unfold k in K0. lia.
      * right. assert (Ns : skipn k A <> []).
        { intro E. apply (f_equal (@length _)) in E. rewrite skipn_length in E. simpl in E. lia. }
        split.
        -- exists (join_nl (firstn k A)). rewrite <- join_app; auto.
           ++ now rewrite firstn_skipn.
           ++ intro E. apply (f_equal (@length _)) in E. rewrite firstn_length in E. simpl in E. lia.
        -- rewrite join_count; auto.
           ++ rewrite skipn_length. unfold k. lia.
           ++ intros l I. apply Xa. rewrite <- (firstn_skipn k A). apply in_or_app. now right.
    + left. split; auto. lia.
  - rewrite Z.gtb_ltb. destruct (Z.ltb_spec limit (Z.of_nat (length B))).
    + set (k := Z.to_nat limit).
      assert (Hk : (k < length B)%nat) by (unfold k; lia).
      destruct (Nat.eq_dec k 0) as [K0|K0].
      * right. left. split; [unfold k in K0; lia|]. now rewrite K0.
      * right. right.
        assert (Nf : firstn k B <> []).
        { intro E. apply (f_equal (@length _)) in E. rewrite firstn_length in E. simpl in E. lia. }
        split.
        -- exists (join_nl (skipn k B)). rewrite <- join_app; auto.
           ++ now rewrite firstn_skipn.
           ++ intro E. apply (f_equal (@length _)) in E. rewrite skipn_length in E. simpl in E. lia.
        -- rewrite join_count; auto.
           ++ rewrite firstn_length. unfold k in *. lia.
           ++ intros l I. apply Xb. rewrite <- (firstn_skipn k B). apply in_or_app. now left.
    + left. split; auto. lia.
Qed.

Lemma contains_src : forall a b, contains a b = Some true -> src a <> None /\ src b <> None.
Proof.
  intros [sa ia na] [sb0 ib nb]. unfold contains, filename. simpl.
  destruct sa, sb0; intro H; try discriminate. split; discriminate.
Qed.

Lemma contains_partial_order :
  (forall a, src a <> None -> contains a a = Some true) /\
  (forall a b, contains a b = Some true -> contains b a = Some true -> a = b) /\
  (forall a b c, contains a b = Some true -> contains b c = Some true -> contains a c = Some true).
Proof.
  split; [|split].
  - intros a H. apply contains_covers; auto. unfold covers. repeat split; lia.
  - intros a b H1 H2. destruct (contains_src _ _ H1) as [A B].
    apply contains_covers in H1, H2; auto. now apply covers_antisym.
  - intros a b c H1 H2. destruct (contains_src _ _ H1) as [A B]. destruct (contains_src _ _ H2) as [_ C].
    apply contains_covers in H1, H2; auto. apply contains_covers; auto.
    destruct H1 as (E1 & ? & ?), H2 as (E2 & ? & ?). repeat split; try lia. congruence.
Qed.

Lemma strip_source_position :
  (exists s o i n s', window s o i n /\ strip_source s = Some s' /\
     position s <> None /\ position s' = None) /\
  (exists s o i n s' p p', window s o i n /\ strip_source s = Some s' /\
     position s = Some p /\ position s' = Some p' /\ p <> p').
Proof.
  split.
  - exists (mkScanner (Some (mkSource (bs "abcd") "")) 3 1), (mkSource (bs "abcd") ""), 3%nat, 1%nat.
    eexists. split; [repeat split; simpl; lia|]. split; [reflexivity|]. split; [discriminate|reflexivity].
  - exists (mkScanner (Some (mkSource (nl :: bs "abc") "")) 1 3), (mkSource (nl :: bs "abc") ""), 1%nat, 3%nat.
    eexists _, _, _. split; [repeat split; simpl; lia|]. split; [reflexivity|].
    split; [reflexivity|]. split; [reflexivity|]. discriminate.
Qed.
