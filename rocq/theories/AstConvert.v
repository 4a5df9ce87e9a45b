(** Converting a tree that fits a smooth grammar succeeds. *)
From Verif Require Import Base Scanner Syntax Resolve PegSpec Ast AstSpec AstProofs AstNodeProofs AstCount.

(** * Names *)

Lemma stem_split : forall n, split_at (bs n) = None /\ stem n = n \/
  split_at (bs n) = Some (bs (stem n), bs (after_at n)) /\ stem n <> n.
Proof.
  unfold bs. induction n as [|c n IH]; simpl; auto.
  destruct (Ascii.eqb c "@"); [right; split; [reflexivity|discriminate]|].
  destruct IH as [[-> ->]|[-> N]]; [left; auto|right; split; auto]. intros E. inversion E. auto.
Qed.
Lemma stem_not_at : forall n s, stem n <> String "@" s.
Proof. intros [|c n] s; simpl; [discriminate|]. destruct (Ascii.eqb_spec c "@") as [->|N]; [discriminate|]. intros E. inversion E. auto. Qed.

Lemma ordinary_level : forall n, ordinary n = true -> level_match n = None.
Proof.
  intros n O. apply String.eqb_eq in O. unfold level_match. destruct (stem_split n) as [[-> _]|[_ N]]; [auto|contradiction].
Qed.
Lemma unlevel_ordinary : forall n g, ordinary n = true -> exists z, unlevel n g = COk (n, z).
Proof.
  intros n g O. unfold unlevel. rewrite ordinary_level by auto.
  destruct (has (n ++ "@1")%string g); [|eauto]. destruct (split_at (bs n)); eauto.
Qed.

Lemma digits_bound : forall d acc, forallb is_digit d = true -> (0 <= acc)%Z ->
  (0 <= digits_value d acc < (acc + 1) * 10 ^ Z.of_nat (length d))%Z.
Proof.
  induction d as [|c d IH]; intros acc F A; cbn [digits_value length].
  - simpl. lia.
  - simpl in F. apply andb_true_iff in F as [F1 F2].
    unfold is_digit in F1. apply andb_true_iff in F1 as [F3 F4]. apply Nat.leb_le in F3, F4.
    specialize (IH (acc * 10 + (Z.of_nat (nat_of_ascii c) - 48))%Z F2 ltac:(lia)).
    rewrite Nat2Z.inj_succ, Z.pow_succ_r by lia. split; [lia|].
    eapply Z.lt_le_trans; [apply IH|]. rewrite Z.mul_assoc. apply Z.mul_le_mono_nonneg_r; [apply Z.pow_nonneg; lia|lia].
Qed.

Lemma unlevel_layered : forall n g, layered n = true -> exists z, unlevel n g = COk (stem n, z).
Proof.
  intros n g L. unfold layered in L.
  apply andb_true_iff in L as [L L5]. apply andb_true_iff in L as [L L4]. apply andb_true_iff in L as [L L3].
  apply andb_true_iff in L as [L1 L2].
  destruct (stem_split n) as [[_ E]|[E _]].
  - exfalso. revert L3 E. clear. induction n as [|c n IH]; simpl; [discriminate|].
    destruct (Ascii.eqb c "@"); [discriminate|]. intros H E. inversion E. auto.
  - unfold unlevel, level_match. rewrite E.
    assert (NE : forall s, negb (String.eqb s "") = true -> nonempty (bs s) = true).
    { intros [|c s]; simpl; auto. }
    rewrite (NE _ L1), (NE _ L3).
    change (forallb is_word) with (forallb wordy). change (forallb is_digit) with (forallb digit).
    rewrite L2, L4. cbn [andb].
    unfold atoi. pose proof (digits_bound (bs (after_at n)) 0 L4 ltac:(lia)) as B.
    assert (LE : length (bs (after_at n)) <= 18).
    { apply Nat.leb_le in L5. unfold bs. clear - L5. revert L5. generalize (after_at n). intros s.
      replace (length (list_ascii_of_string s)) with (String.length s); auto. clear. induction s; simpl; auto. }
    assert (P : (10 ^ Z.of_nat (length (bs (after_at n))) <= 10 ^ 18)%Z) by (apply Z.pow_le_mono_r; lia).
    change (10 ^ 18)%Z with 1000000000000000000%Z in P.
    destruct (Z.leb_spec (digits_value (bs (after_at n)) 0) 9223372036854775807); [|lia].
    rewrite sb_bs. eauto.
Qed.

Lemma unlevel_stem : forall n g, ordinary n = true \/ layered n = true -> exists z, unlevel n g = COk (stem n, z).
Proof.
  intros n g [O|L]; [|now apply unlevel_layered]. destruct (unlevel_ordinary n g O) as (z & E).
  apply String.eqb_eq in O. rewrite O. eauto.
Qed.

(** * The branch under construction *)

Lemma single_top : forall c, single c -> snd c = 1.
Proof. intros c [->| ->]; reflexivity. Qed.
Lemma single_dec : forall c, single c \/ ~ single c.
Proof.
  intros [l h]. unfold single, zeroOrOne, oneOne. destruct h as [|[|h]]; [right; intros [E|E]; inversion E| |right; intros [E|E]; inversion E].
  destruct l as [|[|l]]; [auto|auto|right; intros [E|E]; inversion E].
Qed.
Lemma badd_single : forall name x c b, single c -> badd name x c b = badd_one name x b.
Proof. intros name x c b [->| ->]; reflexivity. Qed.
Lemma badd_multi : forall name x c b, ~ single c -> 0 < snd c -> badd name x c b = badd_many name x b.
Proof.
  intros name x [l h] b NS P. simpl in P. unfold single, zeroOrOne, oneOne in NS.
  destruct h as [|[|h]]; [lia| |]; destruct l as [|[|l]]; try reflexivity; exfalso; apply NS; auto.
Qed.

Definition listed (k : string) (b : branch) : Prop := match lookup k b with Some (One _) => False | _ => True end.

Definition listing (k : string) (b : branch) : nat := match lookup k b with Some (Many xs) => length xs | _ => 0 end.

(** [used]: the names added so far. *)
Record tracks (ctrs : counters) (b : branch) (used : list string) : Prop := {
  tr_used : forall n, In n used -> 0 < top ctrs n;
  tr_one : forall n, In n used -> single (ctr ctrs n) -> exists x, lookup (stem n) b = Some (One x);
  tr_many : forall n, In n used -> ~ single (ctr ctrs n) -> exists xs, lookup (stem n) b = Some (Many xs) /\ length xs = occ used n;
  tr_only : forall k c, lookup k b = Some c -> prefix "@" k = true \/ exists n, In n used /\ stem n = k;
  tr_choice : listed "@choice" b;
  tr_empty : listed "@empty" b }.

Definition unmixed_level (ctrs : counters) : Prop :=
  forall m n, 0 < top ctrs m -> 0 < top ctrs n -> stem m = stem n -> m = n.

Lemma stem_prefix : forall n, prefix "@" (stem n) = false.
Proof.
  intros n. rewrite <- at_name_prefix. destruct (stem n) as [|c s] eqn:E; [reflexivity|].
  destruct (Ascii.eqb_spec c "@") as [->|N]; [exfalso; eapply stem_not_at; eauto|].
  destruct c as [[] [] [] [] [] [] [] []]; try reflexivity. exfalso. apply N. reflexivity.
Qed.
Lemma prefix_other : forall a k, prefix "@" a = true -> prefix "@" k = false -> a <> k.
Proof. congruence. Qed.

Lemma tracks_fresh : forall ctrs b used n, unmixed_level ctrs -> tracks ctrs b used -> 0 < top ctrs n -> ~ In n used ->
  lookup (stem n) b = None.
Proof.
  intros ctrs b used n U T P N. destruct (lookup (stem n) b) as [c|] eqn:L; auto. exfalso.
  destruct (tr_only _ _ _ T _ _ L) as [A|(m & I & E)]; [rewrite stem_prefix in A; discriminate|].
  apply N. rewrite <- (U m n); auto. apply (tr_used _ _ _ T); auto.
Qed.

Lemma tracks_set : forall ctrs b used n c, unmixed_level ctrs -> tracks ctrs b used -> 0 < top ctrs n ->
  (single (ctr ctrs n) -> exists x, c = One x) -> (~ single (ctr ctrs n) -> exists xs, c = Many xs /\ length xs = S (occ used n)) ->
  tracks ctrs (aset (stem n) c b) (used ++ [n]).
Proof.
  intros ctrs b used n c U T P C1 C2.
  assert (OTHER : forall m, In m used -> m <> n -> lookup (stem m) (aset (stem n) c b) = lookup (stem m) b).
  { intros m I N. apply lookup_aset_neq. intros E. apply N. apply U; auto. apply (tr_used _ _ _ T); auto. }
  assert (AT : forall k, prefix "@" k = true -> lookup k (aset (stem n) c b) = lookup k b).
  { intros k A. apply lookup_aset_neq. intros E. subst. rewrite stem_prefix in A. discriminate. }
  constructor.
  - intros m I. apply in_app_or in I as [I|[<-|[]]]; auto. apply (tr_used _ _ _ T); auto.
  - intros m I S. destruct (string_dec m n) as [->|N].
    + destruct (C1 S) as (x & ->). exists x. apply lookup_aset_eq.
    + apply in_app_or in I as [I|[<-|[]]]; [|congruence]. rewrite OTHER by auto. eapply tr_one; eauto.
  - intros m I S. destruct (string_dec m n) as [->|N].
    + destruct (C2 S) as (x & -> & Lx). exists x. split; [apply lookup_aset_eq|]. rewrite occ_app, occ_one, String.eqb_refl. lia.
    + apply in_app_or in I as [I|[<-|[]]]; [|congruence]. rewrite OTHER by auto. destruct (tr_many _ _ _ T m I S) as (xs & Lx & Ox).
      exists xs. split; auto. rewrite occ_app, occ_one. apply String.eqb_neq in N. rewrite N. lia.
  - intros k c' L. destruct (string_dec (stem n) k) as [<-|N].
    + right. exists n. split; auto. apply in_or_app. right. now left.
    + rewrite lookup_aset_neq in L by auto. destruct (tr_only _ _ _ T _ _ L) as [A|(m & I & E)]; auto.
      right. exists m. split; auto. apply in_or_app. auto.
  - unfold listed. rewrite AT by reflexivity. apply (tr_choice _ _ _ T).
  - unfold listed. rewrite AT by reflexivity. apply (tr_empty _ _ _ T).
Qed.

Lemma badd_tracks : forall ctrs b used n x, unmixed_level ctrs -> tracks ctrs b used -> 0 < top ctrs n ->
  (single (ctr ctrs n) -> ~ In n used) ->
  exists b', badd (stem n) x (ctr ctrs n) b = COk b' /\ tracks ctrs b' (used ++ [n]).
Proof.
  intros ctrs b used n x U T P S. destruct (single_dec (ctr ctrs n)) as [Y|N].
  - rewrite badd_single by auto. unfold badd_one. rewrite (tracks_fresh ctrs b used) by auto.
    eexists. split; [reflexivity|]. apply tracks_set; auto; [eauto|tauto].
  - rewrite badd_multi by auto. unfold badd_many. destruct (in_dec string_dec n used) as [I|NI].
    + destruct (tr_many _ _ _ T n I N) as (xs & -> & Lx). eexists. split; [reflexivity|]. apply tracks_set; auto; [tauto|].
      intros _. eexists. split; [reflexivity|]. rewrite app_length. simpl. lia.
    + rewrite (tracks_fresh ctrs b used) by auto. eexists. split; [reflexivity|]. apply tracks_set; auto; [tauto|].
      intros _. eexists. split; [reflexivity|]. destruct (occ used n) eqn:O; [reflexivity|]. exfalso. apply NI. apply occ_In. lia.
Qed.

Lemma badd_at : forall ctrs b used k x, k = "@choice"%string \/ k = "@empty"%string -> tracks ctrs b used ->
  exists b', badd_many k x b = COk b' /\ tracks ctrs b' used.
Proof.
  intros ctrs b used k x K T.
  assert (L : listed k b) by (destruct K as [->| ->]; apply T).
  assert (A : prefix "@" k = true) by (destruct K as [->| ->]; reflexivity).
  assert (X : exists xs, badd_many k x b = COk (aset k (Many xs) b)).
  { unfold badd_many. unfold listed in L. destruct (lookup k b) as [[y|ys]|]; [contradiction|eauto|eauto]. }
  destruct X as (xs & ->). eexists. split; [reflexivity|].
  assert (OTHER : forall m, lookup (stem m) (aset k (Many xs) b) = lookup (stem m) b).
  { intros m. apply lookup_aset_neq. intros E. subst. rewrite stem_prefix in A. discriminate. }
  constructor.
  - apply T.
  - intros m I S. rewrite OTHER. eapply tr_one; eauto.
  - intros m I S. rewrite OTHER. eapply tr_many; eauto.
  - intros k' c' Lk. destruct (string_dec k k') as [<-|N]; auto.
    rewrite lookup_aset_neq in Lk by auto. apply (tr_only _ _ _ T _ _ Lk).
  - destruct (string_dec k "@choice") as [->|N]; unfold listed; [rewrite lookup_aset_eq; exact I|].
    rewrite lookup_aset_neq by auto. apply T.
  - destruct (string_dec k "@empty") as [->|N]; unfold listed; [rewrite lookup_aset_eq; exact I|].
    rewrite lookup_aset_neq by auto. apply T.
Qed.

Lemma tracks_start : forall ctrs b, (forall k c, lookup k b = Some c -> k = "@rule"%string) -> tracks ctrs b [].
Proof.
  intros ctrs b H. constructor; try (intros n []; fail).
  - intros k c L. left. rewrite (H _ _ L). reflexivity.
  - unfold listed. destruct (lookup "@choice" b) eqn:L; auto. apply H in L. discriminate.
  - unfold listed. destruct (lookup "@empty" b) eqn:L; auto. apply H in L. discriminate.
Qed.

(** * The rules in force *)

(** Rewriting up to the names of types. *)
Ltac use_run E :=
  match type of E with _ = ?r =>
    match goal with
    | |- context [each ?a ?b ?c ?d] => replace (each a b c d) with r by (symmetry; exact E)
    | |- context [from_node ?f ?o ?c ?e ?s] => replace (from_node f o c e s) with r by (symmetry; exact E)
    end
  end.

Section Convert.
  (** What the rule names mean. *)
  Variable U : string -> option term.

  Definition inside (l : list (string * term)) : Prop := forall k t, In (k, t) l -> k <> WrapRE -> U k = Some t.
  Definition env_fine (gs : grammars) : Prop := Forall (fun g => inside (all_rules g) /\ smooth_grammar g) gs.
  Definition holds (g : grammar) (gs : grammars) : Prop :=
    forall r gs' t, defines gs r gs' t -> r <> WrapRE -> lookup r g = Some t.
  Definition grows (g g' : grammar) : Prop :=
    forall r t, r <> WrapRE -> U r = Some t -> lookup r g = Some t -> lookup r g' = Some t.

  Lemma grows_refl : forall g, grows g g.
  Proof. intros g r t. auto. Qed.
  Lemma grows_trans : forall a b c, grows a b -> grows b c -> grows a c.
  Proof. intros a b c A B r t W E L. apply B; auto. Qed.

  Lemma defines_in : forall gs r gs' t, defines gs r gs' t -> env_fine gs ->
    env_fine gs' /\ smooth t /\ unmixed t /\ inside (inner_rules t) /\ (r <> WrapRE -> U r = Some t).
  Proof.
    induction 1 as [g gs r t L|g gs r gs' t L D IH]; intros EF; [|inversion EF; auto].
    split; auto. inversion EF as [|? ? [I S] _]; subst. apply lookup_In in L.
    unfold smooth_grammar in S. rewrite Forall_forall in S. destruct (S _ L) as [S1 S2].
    split; [exact S1|]. split; [exact S2|]. split.
    - intros k x J N. apply I; auto. unfold all_rules. apply in_or_app. right. apply in_flat_map. exists (r, t). auto.
    - intros N. apply I; auto. unfold all_rules. apply in_or_app. auto.
  Qed.
  Lemma defines_tail : forall gs r gs' t, defines gs r gs' t -> forall g, holds g gs -> env_fine gs -> holds g gs'.
  Proof.
    induction 1 as [g gs r t L|g gs r gs' t L D IH]; intros g0 H EF; auto.
    inversion EF as [|? ? [EI _] EF']; subst. apply IH; auto. intros r1 gs1 t1 D1 N1.
    destruct (lookup r1 g) as [t2|] eqn:L2; [|apply (H r1 gs1 t1); auto; now apply df_outer].
    assert (t2 = t1).
    { apply lookup_In in L2. assert (U r1 = Some t2) by (apply EI; auto; apply in_or_app; auto).
      apply defines_in in D1 as (_ & _ & _ & _ & X); auto. rewrite (X N1) in H0. congruence. }
    subst. apply (H r1 (g :: gs) t1); auto. now constructor.
  Qed.
  Lemma grows_holds : forall g g' gs, grows g g' -> env_fine gs -> holds g gs -> holds g' gs.
  Proof.
    intros g g' gs G EF H r gs' t D N. apply G; auto; [|eapply H; eauto]. apply (defines_in _ _ _ _ D); auto.
  Qed.

  Lemma merge_lookup : forall nested g r, inside nested -> r <> WrapRE ->
    lookup r (merge_rules g nested) = if has r nested then U r else lookup r g.
  Proof.
    unfold merge_rules. induction nested as [|[k t] nested IH]; intros g r I N; [reflexivity|].
    cbn [fold_left fst snd]. rewrite IH; auto; [|intros k' t' J; apply I; now right].
    unfold has. cbn [lookup]. destruct (String.eqb_spec r k) as [->|Q].
    - destruct (lookup k nested); auto. rewrite lookup_aset_eq. symmetry. apply I; auto. now left.
    - destruct (lookup r nested); auto. apply lookup_aset_neq. congruence.
  Qed.
  Lemma merge_grows : forall nested g, inside nested -> grows g (merge_rules g nested).
  Proof.
    intros nested g I r t N E L. rewrite merge_lookup by auto. destruct (has r nested); auto.
  Qed.
  Lemma merge_holds : forall nested g gs, inside nested -> holds g gs -> holds (merge_rules g nested) (nested :: gs).
  Proof.
    intros nested g gs I H r gs' t D N. rewrite merge_lookup by auto. inversion D as [? ? ? ? L|? ? ? ? ? L D']; subst.
    - unfold has. rewrite L. apply I; auto. now apply lookup_In.
    - unfold has. rewrite L. eapply H; eauto.
  Qed.

  (** * Back references *)

  Lemma ref_converts : forall i d v, repeating v ->
    exists N, forall f, N <= f -> forall ctrs b g, ~ single (ctr ctrs i) -> 0 < top ctrs i -> listed i b ->
    exists b' c, from_node f (Some (TREF i d)) ctrs v (b, g) = COk (b', g) /\ b' = aset i (Many c) b /\ length c = S (listing i b).
  Proof.
    intros i d v R.
    assert (ADD : forall ctrs b x, ~ single (ctr ctrs i) -> 0 < top ctrs i -> listed i b ->
              exists c, badd i x (ctr ctrs i) b = COk (aset i (Many c) b) /\ length c = S (listing i b)).
    { intros ctrs b x NS P L. rewrite badd_multi by auto. unfold badd_many. unfold listed, listing in *.
      destruct (lookup i b) as [[y|ys]|]; [contradiction| |]; eexists; (split; [reflexivity|]); [rewrite app_length; simpl; lia|reflexivity]. }
    revert v R. induction v as [tag x cs IH|s|] using tree_ind'; intros R.
    - inversion R as [|? ? ? RC]; subst.
      assert (X : exists N, forall f, N <= f -> forall ctrs j b g, ~ single (ctr ctrs i) -> 0 < top ctrs i -> listed i b ->
        exists b', each (fun _ c st => from_node f (Some (TREF i d)) ctrs c st) j cs (b, g) = COk (b', g) /\ listed i b').
      { clear R. induction IH as [|c cs IHc F IHcs].
        - exists 0. intros f _ ctrs j b g NS P L. exists b. split; auto.
        - inversion RC as [|? ? RC1 RC2]; subst. destruct (IHc RC1) as (N1 & H1). destruct (IHcs RC2) as (N2 & H2).
          exists (Nat.max N1 N2). intros f Hf ctrs j b g NS P L. cbn [each].
          destruct (H1 f ltac:(lia) ctrs b g NS P L) as (b1 & c1 & -> & -> & _). cbn [cbind].
          apply H2; [lia|auto|auto|]. unfold listed. rewrite lookup_aset_eq. exact I. }
      destruct X as (N & H). exists (S N). intros f Hf ctrs b g NS P L. destruct f as [|f]; [lia|]. cbn [from_node].
      destruct (H f ltac:(lia) ctrs 0 [] g NS P I) as (b2 & E & _). use_run E. cbn [cbind].
      destruct (ADD ctrs b (ABranch b2) NS P L) as (c & -> & Lc). cbn [cbind]. eauto.
    - exists 1. intros f Hf ctrs b g NS P L. destruct f as [|f]; [lia|]. cbn [from_node].
      destruct (ADD ctrs b (ALeaf s) NS P L) as (c & -> & Lc). cbn [cbind]. eauto.
    - inversion R.
  Qed.

  (** * The conversion *)

  Definition room_for (ctrs : counters) (used ks : list string) : Prop :=
    forall n, single (ctr ctrs n) -> occ (used ++ ks) n <= 1.
  Definition counted (ctrs : counters) (t : term) : Prop := forall n, hi t n <= top ctrs n.

  Definition converts (f : nat) (gs : grammars) (t : term) (v : tree) (ks : list string) : Prop :=
    forall ctrs b g used, unmixed_level ctrs -> holds g gs -> counted ctrs t -> tracks ctrs b used ->
    room_for ctrs used ks ->
    exists b' g', from_node f (Some t) ctrs v (b, g) = COk (b', g') /\ tracks ctrs b' (used ++ ks) /\ grows g g'.

  Lemma room_left : forall ctrs used k ks, room_for ctrs used (k ++ ks) -> room_for ctrs used k.
  Proof. intros ctrs used k ks R n S. specialize (R n S). rewrite !occ_app in *. lia. Qed.
  Lemma room_right : forall ctrs used k ks, room_for ctrs used (k ++ ks) -> room_for ctrs (used ++ k) ks.
  Proof. intros ctrs used k ks R n S. specialize (R n S). now rewrite app_assoc in R. Qed.
  Lemma room_one : forall ctrs used n, room_for ctrs used [n] -> single (ctr ctrs n) -> ~ In n used.
  Proof.
    intros ctrs used n R S I. specialize (R n S). rewrite occ_app, occ_one, String.eqb_refl in R. apply occ_In in I. lia.
  Qed.

  (** A level of its own: the body of a rule or of a named term. *)
  Lemma level_converts : forall f gs t v ks, fits gs t v ks -> smooth t -> unmixed t -> no_stack t = true ->
    converts f gs t v ks -> forall g, holds g gs ->
    exists cc b' g', new_counters (Some t) = COk cc /\ from_node f (Some t) cc v ([], g) = COk (b', g') /\ grows g g'.
  Proof.
    intros f gs t v ks F S UM NS C g H. destruct (new_counters_top t NS) as (cc & E & T). exists cc.
    assert (L : unmixed_level cc).
    { intros m n M N Q. rewrite T in *. apply UM; auto; now apply hi_names. }
    destruct (C cc [] g [] L H) as (b' & g' & E2 & _ & G); eauto.
    - intros n. rewrite T. auto.
    - apply tracks_start. discriminate.
    - intros n Sg. apply single_top in Sg. fold (top cc n) in Sg. rewrite T in Sg.
      pose proof (proj1 fits_occ _ _ _ _ F n). simpl. lia.
  Qed.

  Lemma smooth_no_stack : forall t, smooth t -> no_stack t = true.
  Proof.
    induction t using term_ind'; intros S; inversion S; subst; simpl; auto.
    - rewrite forallb_forall. intros x I. rewrite Forall_forall in *. auto.
    - rewrite forallb_forall. intros x I. rewrite Forall_forall in *. auto.
    - rewrite IHt1, IHt2; auto.
    - rewrite IHt by auto. simpl. rewrite forallb_forall. intros x I. rewrite Forall_forall in *. apply H; auto.
      match goal with A : forall x, In x g -> _ /\ _ |- _ => apply (A x I) end.
  Qed.

  Fixpoint list_depth (t : term) : nat := match t with TDelim u _ _ _ _ => S (list_depth u) | _ => 0 end.
  Lemma term_same_deeper : forall t u sep a cs ce, list_depth t <= list_depth u ->
    term_same t (TDelim u sep a cs ce) = Some false.
  Proof.
    induction t using term_ind'; intros u sep0 a0 cs0 ce0 D; try reflexivity.
    cbn [term_same]. destruct u; simpl in D; try lia. rewrite IHt1; [reflexivity|lia].
  Qed.
  Lemma term_same_item : forall t sep a cs ce, term_same t (TDelim t sep a cs ce) = Some false.
  Proof. intros. now apply term_same_deeper. Qed.
  Lemma term_same_sep : forall sep t a cs ce sep', is_delim sep = false -> term_same sep (TDelim t sep' a cs ce) = Some false.
  Proof. intros sep t a cs ce sep' D. destruct sep; try reflexivity. discriminate. Qed.

  Lemma fits_not_empty : forall gs t v ks, fits gs t v ks -> v <> Empty.
  Proof.
    assert (X : (forall gs t v ks, fits gs t v ks -> v <> Empty) /\ (forall gs ts cs ks, fits_all gs ts cs ks -> True) /\
      (forall gs t cs ks, fits_many gs t cs ks -> True) /\ (forall gs t sep cs ks, fits_turns gs t sep cs ks -> True)).
    { apply fits_mutind; intros; auto; try discriminate. inversion H; discriminate. }
    exact (proj1 X).
  Qed.

  Definition list_step (f : nat) (t sep term : term) (tag : string) (ctrs : counters) (i : nat) (child : tree) (st : branch * grammar)
    : cres (branch * grammar) :=
    match child with
    | Empty =>
        cbind (badd_many "@empty" (AExtra (DString (if Nat.eqb i 0 then "@prefix" else "@suffix"))) (fst st))
              (fun b' => COk (b', snd st))
    | _ =>
        let lr := lr_term t sep term NonAssociative i in
        match term_same lr term with
        | None => CPanic
        | Some true =>
            match child with
            | Node _ _ _ =>
                cbind (new_counters (Some lr)) (fun cc =>
                cbind (count_children term (ctr ctrs "") cc) (fun cc =>
                cbind (from_node f (Some lr) cc child ([], snd st)) (fun '(b2, g2) =>
                cbind (badd_one tag (ABranch b2) (fst st)) (fun b' => COk (b', g2)))))
            | _ => from_node f (Some t) ctrs child st
            end
        | Some false => from_node f (Some lr) ctrs child st
        end
    end.

  Definition runs (run : branch * grammar -> cres (branch * grammar)) (gs : grammars) (ts : list term) (ks : list string)
    (ctrs : counters) : Prop :=
    forall b g used, unmixed_level ctrs -> holds g gs -> Forall (counted ctrs) ts -> tracks ctrs b used -> room_for ctrs used ks ->
    exists b' g', run (b, g) = COk (b', g') /\ tracks ctrs b' (used ++ ks) /\ grows g g'.

  Lemma inside_app : forall a b, inside (a ++ b) -> inside a /\ inside b.
  Proof. intros a b H. split; intros k t I; apply H; apply in_or_app; auto. Qed.
  Lemma inside_flat : forall A (F : A -> list (string * term)) l x, inside (flat_map F l) -> In x l -> inside (F x).
  Proof. intros A F l x H I k t J. apply H. apply in_flat_map. eauto. Qed.

  Lemma runs_next : forall (run1 run2 : branch * grammar -> cres (branch * grammar)) gs ts k ks ctrs,
    env_fine gs -> runs run1 gs ts k ctrs -> runs run2 gs ts ks ctrs -> runs (fun st => cbind (run1 st) run2) gs ts (k ++ ks) ctrs.
  Proof.
    intros run1 run2 gs ts k ks ctrs EF H1 H2 b g used UL H C T R.
    destruct (H1 b g used UL H C T (room_left _ _ _ _ R)) as (b1 & g1 & E1 & T1 & G1).
    destruct (H2 b1 g1 (used ++ k) UL (grows_holds _ _ _ G1 EF H) C T1 (room_right _ _ _ _ R)) as (b2 & g2 & E2 & T2 & G2).
    exists b2, g2. rewrite E1. cbn [cbind]. split; auto. rewrite app_assoc. split; auto. eapply grows_trans; eauto.
  Qed.
  Lemma runs_weaken : forall run gs ts ts' ks ctrs, runs run gs ts ks ctrs -> (forall t, In t ts -> In t ts') -> runs run gs ts' ks ctrs.
  Proof.
    intros run gs ts ts' ks ctrs H I b g used UL HO C T R. apply H; auto. rewrite Forall_forall in *. auto.
  Qed.
  Lemma converts_runs : forall f gs t v ks ctrs, converts f gs t v ks -> runs (from_node f (Some t) ctrs v) gs [t] ks ctrs.
  Proof. intros f gs t v ks ctrs H b g used UL HO C T R. inversion C; subst. apply H; auto. Qed.

  Theorem fits_converts :
    (forall gs t v ks, fits gs t v ks -> smooth t -> inside (inner_rules t) -> env_fine gs ->
       exists N, forall f, N <= f -> converts f gs t v ks) /\
    (forall gs ts cs ks, fits_all gs ts cs ks -> Forall smooth ts -> inside (flat_map inner_rules ts) -> env_fine gs ->
       exists N, forall f, N <= f -> forall pre ctrs,
       runs (each (fun i c st => match nth_error (pre ++ ts) i with
                                 | Some t => from_node f (Some t) ctrs c st
                                 | None => CPanic
                                 end) (length pre) cs) gs ts ks ctrs) /\
    (forall gs t cs ks, fits_many gs t cs ks -> smooth t -> inside (inner_rules t) -> env_fine gs ->
       exists N, forall f, N <= f -> forall ctrs i,
       runs (each (fun _ c st => from_node f (Some t) ctrs c st) i cs) gs [t] ks ctrs) /\
    (forall gs t sep cs ks, fits_turns gs t sep cs ks -> smooth t -> smooth sep -> inside (inner_rules t) ->
       inside (inner_rules sep) -> env_fine gs ->
       exists N, forall f, N <= f -> forall ctrs i a0 cs0 ce0 tag T S, is_delim S = false ->
       (if Nat.odd i then t = S /\ sep = T else t = T /\ sep = S) ->
       runs (each (list_step f T S (TDelim T S a0 cs0 ce0) tag ctrs) i cs) gs [t; sep] ks ctrs).
  Proof.
    apply fits_mutind.
    - (* literal *)
      intros gs x s _ _ _. exists 1. intros f Hf ctrs b g used UL H C T R. destruct f as [|f]; [lia|]. cbn [from_node].
      destruct (badd_tracks ctrs b used "" (ALeaf s) UL T) as (b' & E & T').
      { specialize (C ""%string). simpl in C. lia. }
      { now apply room_one. }
      simpl stem in E. rewrite E. cbn [cbind]. eauto using grows_refl.
    - intros gs x s _ _ _. exists 1. intros f Hf ctrs b g used UL H C T R. destruct f as [|f]; [lia|]. cbn [from_node].
      destruct (badd_tracks ctrs b used "" (ALeaf s) UL T) as (b' & E & T').
      { specialize (C ""%string). simpl in C. lia. }
      { now apply room_one. }
      simpl stem in E. rewrite E. cbn [cbind]. eauto using grows_refl.
    - (* named *)
      intros gs n t v ks F IH S I EF. inversion S as [| | | |? ? ON UM ST| | | | | | |]; subst. destruct (IH ST I EF) as (N & H).
      exists (Datatypes.S N). intros f Hf ctrs b g used UL HO C T R. destruct f as [|f]; [lia|].
      destruct (level_converts f gs t v ks F ST UM (smooth_no_stack _ ST) (H f ltac:(lia)) g HO) as (cc & b2 & g2 & E1 & E2 & G).
      cbn [from_node]. rewrite E1. cbn [cbind]. use_run E2. cbn [cbind].
      destruct (badd_tracks ctrs b used n (ABranch b2) UL T) as (b' & E & T').
      { specialize (C n). simpl in C. rewrite String.eqb_refl in C. lia. }
      { now apply room_one. }
      apply String.eqb_eq in ON. rewrite ON in E. rewrite E. cbn [cbind]. eauto.
    - (* rule *)
      intros gs r gs' t v ks D F IH S I EF. inversion S as [| |? W OL| | | | | | | | |]; subst.
      destruct (defines_in _ _ _ _ D EF) as (EF' & ST & UM & IT & UR). destruct (IH ST IT EF') as (N & H).
      exists (Datatypes.S N). intros f Hf ctrs b g used UL HO C T R. destruct f as [|f]; [lia|].
      pose proof (defines_tail _ _ _ _ D g HO EF) as HO'.
      destruct (level_converts f gs' t v ks F ST UM (smooth_no_stack _ ST) (H f ltac:(lia)) g HO') as (cc & b2 & g2 & E1 & E2 & G).
      cbn [from_node]. rewrite (HO _ _ _ D W), E1. cbn [cbind].
      destruct (unlevel_stem r g OL) as (z & ->). cbn [cbind fst]. use_run E2. cbn [cbind].
      destruct (badd_tracks ctrs b used r (ABranch b2) UL T) as (b' & E & T').
      { specialize (C r). simpl in C. rewrite String.eqb_refl in C. lia. }
      { now apply room_one. }
      rewrite E. cbn [cbind]. eauto.
    - (* back reference *)
      intros gs i d v RP S I EF. inversion S as [| | |? ? OI| | | | | | | |]; subst.
      assert (X : forall ctrs, counted ctrs (TREF i d) -> 0 < top ctrs i /\ ~ single (ctr ctrs i)).
      { intros ctrs C. specialize (C i). simpl in C. rewrite String.eqb_refl in C. unfold top in *. split; [lia|].
        intros Sg. apply single_top in Sg. lia. }
      destruct (ref_converts i d v RP) as (N & H). exists N. intros f Hf ctrs b g used UL HO C T R.
      destruct (X _ C) as [P NS]. apply String.eqb_eq in OI.
      assert (L : listed i b).
      { unfold listed. destruct (in_dec string_dec i used) as [J|J].
        - destruct (tr_many _ _ _ T i J NS) as (xs & Lk & _). rewrite OI in Lk. rewrite Lk. exact Logic.I.
        - pose proof (tracks_fresh _ _ _ _ UL T P J) as Lk. rewrite OI in Lk. rewrite Lk. exact Logic.I. }
      destruct (H f Hf ctrs b g NS P L) as (b' & c & E & -> & Lc). exists (aset i (Many c) b), g. split; auto. split; [|apply grows_refl].
      rewrite <- OI at 1. apply tracks_set; auto; [tauto|]. intros _. exists c. split; auto. rewrite Lc. f_equal. unfold listing.
      destruct (in_dec string_dec i used) as [J|J].
      + destruct (tr_many _ _ _ T i J NS) as (xs & Lk & Lx). rewrite OI in Lk. now rewrite Lk.
      + pose proof (tracks_fresh _ _ _ _ UL T P J) as Lk. rewrite OI in Lk. rewrite Lk.
        destruct (occ used i) eqn:O; auto. exfalso. apply J. apply occ_In. lia.
    - (* cut *)
      intros gs t v ks F IH S I EF. inversion S; subst. destruct IH as (N & H); auto.
      exists (Datatypes.S N). intros f Hf ctrs b g used UL HO C T R. destruct f as [|f]; [lia|]. cbn [from_node].
      apply H; auto. lia.
    - (* scoped *)
      intros gs t g0 v ks F IH S I EF. inversion S as [| | | | | | | | | | |? ? ST SG]; subst. cbn [inner_rules] in I.
      apply inside_app in I as [I1 I2]. apply inside_app in I2 as [I2 I3].
      destruct IH as (N & H); auto.
      { constructor; auto. split; auto. intros k x J NW. apply in_app_or in J as [J|J]; [apply I2|apply I3]; auto. }
      exists (Datatypes.S N). intros f Hf ctrs b g used UL HO C T R. destruct f as [|f]; [lia|]. cbn [from_node].
      destruct (H f ltac:(lia) ctrs b (merge_rules g g0) used UL (merge_holds _ _ _ I2 HO)) as (b' & g' & E & T' & G); auto.
      { intros n. specialize (C n). simpl in C. lia. }
      exists b', g'. split; [exact E|]. split; [exact T'|]. exact (grows_trans _ _ _ (merge_grows _ g I2) G).
    - (* sequence *)
      intros gs ts tag cs ks F IH S I EF. inversion S; subst. destruct IH as (N & H); auto.
      exists (Datatypes.S N). intros f Hf ctrs b g used UL HO C T R. destruct f as [|f]; [lia|]. cbn [from_node].
      apply (H f ltac:(lia) [] ctrs); auto. rewrite Forall_forall. intros t J n. specialize (C n). cbn [hi] in C.
      eapply Nat.le_trans; [|exact C]. clear - J. induction ts; simpl; [contradiction|]. destruct J as [->|J]; [lia|]. apply IHts in J. lia.
    - (* choice *)
      intros gs ts tag i t v ks NE F IH S I EF. inversion S as [| | | | | |? FS| | | | |]; subst.
      pose proof (nth_error_In _ _ NE) as J. rewrite Forall_forall in FS.
      destruct IH as (N & H); auto. { eapply inside_flat; eauto. }
      exists (Datatypes.S N). intros f Hf ctrs b g used UL HO C T R. destruct f as [|f]; [lia|]. cbn [from_node].
      destruct (badd_at ctrs b used "@choice" (AExtra (DChoice i)) (or_introl eq_refl) T) as (b1 & -> & T1). cbn [cbind].
      rewrite NE. apply H; auto; [lia|]. intros n. specialize (C n). cbn [hi] in C.
      eapply Nat.le_trans; [|exact C]. clear - J. induction ts; simpl; [contradiction|]. destruct J as [->|J]; [lia|]. apply IHts in J. lia.
    - (* repetition *)
      intros gs t mn mx tag cs ks F IH L1 L2 S I EF. inversion S; subst. destruct IH as (N & H); auto.
      exists (Datatypes.S N). intros f Hf ctrs b g used UL HO C T R. destruct f as [|f]; [lia|]. cbn [from_node].
      apply (H f ltac:(lia) ctrs 0); auto. constructor; auto. intros n. specialize (C n). cbn [hi] in C.
      destruct (Nat.eqb_spec mx 0); nia.
    - (* look-ahead *)
      intros gs t tag v ks F IH S I EF. inversion S; subst. destruct IH as (N & H); auto.
      exists (Datatypes.S N). intros f Hf ctrs b g used UL HO C T R. destruct f as [|f]; [lia|]. cbn [from_node each].
      destruct (H f ltac:(lia) ctrs b g used) as (b' & g' & E & T' & G); auto. use_run E. cbn [cbind]. eauto.
    - (* list *)
      intros gs t sep a cs ce tag items ks F IH S I EF. inversion S as [| | | | | | |? ? ? ? S1 S2 ND| | | |]; subst.
      cbn [inner_rules] in I. apply inside_app in I as [I1 I2]. destruct IH as (N & H); auto.
      exists (Datatypes.S N). intros f Hf ctrs b g used UL HO C T R. destruct f as [|f]; [lia|].
      destruct (H f ltac:(lia) ctrs 0 NonAssociative cs ce tag t sep ND) with (b := b) (g := g) (used := used) as (b' & g' & E & T' & G); auto.
      { simpl. auto. }
      { constructor; [|constructor; [|constructor]]; intros n; specialize (C n); cbn [hi] in C; lia. }
      exists b', g'. split; [exact E|]. auto.
    - intros gs _ _ _. exists 0. intros f _ pre ctrs b g used UL HO C T R. exists b, g. simpl. rewrite app_nil_r. auto using grows_refl.
    - intros gs t ts v cs k ks F IH FA IHA S I EF. inversion S as [|? ? S1 S2]; subst. cbn [flat_map] in I. apply inside_app in I as [I1 I2].
      destruct (IH S1 I1 EF) as (N1 & H1). destruct (IHA S2 I2 EF) as (N2 & H2).
      exists (Nat.max N1 N2). intros f Hf pre ctrs. cbn [each].
      replace (nth_error (pre ++ t :: ts) (length pre)) with (Some t) by (rewrite nth_error_app2, Nat.sub_diag by lia; reflexivity).
      apply runs_next; auto.
      + eapply runs_weaken; [apply converts_runs; apply H1; lia|]. intros x [->|[]]. now left.
      + specialize (H2 f ltac:(lia) (pre ++ [t]) ctrs). rewrite <- app_assoc, app_length in H2. simpl in H2.
        rewrite Nat.add_1_r in H2. eapply runs_weaken; [exact H2|]. intros x J. now right.
    - intros gs t _ _ _. exists 0. intros f _ ctrs i b g used UL HO C T R. exists b, g. simpl. rewrite app_nil_r. auto using grows_refl.
    - intros gs t v cs k ks F IH FA IHA S I EF.
      destruct (IH S I EF) as (N1 & H1). destruct (IHA S I EF) as (N2 & H2).
      exists (Nat.max N1 N2). intros f Hf ctrs i. cbn [each]. apply runs_next; auto.
      + apply converts_runs. apply H1. lia.
      + apply H2. lia.
    - intros gs t sep _ _ _ _ _. exists 0. intros f _ ctrs i a0 cs0 ce0 tag T0 S0 _ _ b g used UL HO C T R. exists b, g. simpl. rewrite app_nil_r. auto using grows_refl.
    - intros gs t sep cs ks F IH S1 S2 I1 I2 EF. destruct (IH S2 S1 I2 I1 EF) as (N & H).
      exists N. intros f Hf ctrs i a0 cs0 ce0 tag T0 S0 ND ALT. cbn [each].
      change ks with ([] ++ ks). apply runs_next; auto.
      + intros b g used UL HO C T R. unfold list_step. cbn [fst snd].
        destruct (badd_at ctrs b used "@empty" (AExtra (DString (if Nat.eqb i 0 then "@prefix" else "@suffix"))) (or_intror eq_refl) T) as (b1 & -> & T1).
        cbn [cbind]. rewrite app_nil_r. eauto using grows_refl.
      + eapply runs_weaken; [apply (H f Hf ctrs (Datatypes.S i) a0 cs0 ce0 tag T0 S0 ND)|simpl; tauto].
        rewrite Nat.odd_succ. rewrite <- Nat.negb_odd. destruct (Nat.odd i); simpl; tauto.
    - intros gs t sep v cs k ks F IH FT IHT S1 S2 I1 I2 EF. destruct (IH S1 I1 EF) as (N1 & H1). destruct (IHT S2 S1 I2 I1 EF) as (N2 & H2).
      exists (Nat.max N1 N2). intros f Hf ctrs i a0 cs0 ce0 tag T0 S0 ND ALT. cbn [each]. apply runs_next; auto.
      + intros b g used UL HO C T R. inversion C as [|? ? C1 C2]; subst.
        assert (LR : list_step f T0 S0 (TDelim T0 S0 a0 cs0 ce0) tag ctrs i v (b, g) = from_node f (Some t) ctrs v (b, g)).
        { pose proof (fits_not_empty _ _ _ _ F) as NV. unfold list_step.
          assert (LT : lr_term T0 S0 (TDelim T0 S0 a0 cs0 ce0) NonAssociative i = t).
          { unfold lr_term. destruct (Nat.odd i); destruct ALT as [-> ->]; auto. }
          rewrite LT. assert (TS : term_same t (TDelim T0 S0 a0 cs0 ce0) = Some false).
          { destruct (Nat.odd i); destruct ALT as [-> ->]; [now apply term_same_sep|apply term_same_item]. }
          rewrite TS. destruct v; auto. congruence. }
        rewrite LR. apply H1; auto. lia.
      + eapply runs_weaken; [apply (H2 f ltac:(lia) ctrs (Datatypes.S i) a0 cs0 ce0 tag T0 S0 ND)|simpl; tauto].
        rewrite Nat.odd_succ. rewrite <- Nat.negb_odd. destruct (Nat.odd i); simpl; tauto.
  Qed.
End Convert.
