(** Proofs about the comparison of grammars and trees. *)
From Verif Require Import Base Scanner Syntax Diff DiffSpec.

Lemma assoc_eqb_eq : forall a b, assoc_eqb a b = true <-> a = b.
Proof. destruct a, b; simpl; split; intro H; congruence. Qed.

(** The nested fixpoints as library functions. *)
Definition deep_rules (gy gx : list (string * term)) : bool :=
  forallb (fun kv : string * term => match lookup (fst kv) gy with Some w => deep_equal (snd kv) w | None => false end) gx.

Fixpoint deep_list (xs ys : list term) : bool :=
  match xs, ys with
  | [], [] => true
  | x :: xs', y :: ys' => deep_equal x y && deep_list xs' ys'
  | _, _ => false
  end.

Lemma deep_scoped : forall x y gx gy, deep_equal (TScoped x gx) (TScoped y gy) =
  deep_equal x y && deep_equal_grammar gx gy.
Proof.
  intros. simpl. unfold deep_equal_grammar. rewrite andb_assoc. f_equal.
  induction gx as [|[k v] gx IH]; simpl; auto. now rewrite IH.
Qed.

Lemma maps_ok_list : forall ts, maps_ok (TSeq ts) <-> Forall maps_ok ts.
Proof.
  induction ts as [|t ts IH]; simpl in *; split; intro H; auto.
  - destruct H. constructor; tauto.
  - inversion H; subst. split; auto. now apply IH.
Qed.
Lemma maps_ok_scoped : forall t g, maps_ok (TScoped t g) <->
  maps_ok t /\ NoDup (keys g) /\ Forall (fun kv : string * term => maps_ok (snd kv)) g.
Proof.
  intros t g. simpl.
  match goal with |- _ /\ _ /\ ?f g <-> _ =>
    assert (E : f g <-> Forall (fun kv : string * term => maps_ok (snd kv)) g); [|tauto] end.
  induction g as [|[k v] g IH]; [split; auto|]. rewrite IH. split.
  - intros [? ?]. constructor; auto.
  - intro H. inversion H; subst. auto.
Qed.
Lemma diffable_list : forall D ts, diffable D (TSeq ts) <-> Forall (diffable D) ts.
Proof.
  induction ts as [|t ts IH]; simpl in *; split; intro H; auto.
  - destruct H. constructor; tauto.
  - inversion H; subst. split; auto. now apply IH.
Qed.
Lemma diffable_scoped : forall D t g, diffable D (TScoped t g) <->
  diffable D t /\ Forall (fun kv : string * term => diffable D (snd kv)) g.
Proof.
  intros D t g. simpl.
  match goal with |- _ /\ ?f g <-> _ =>
    assert (E : f g <-> Forall (fun kv : string * term => diffable D (snd kv)) g); [|tauto] end.
  induction g as [|[k v] g IH]; [split; auto|]. rewrite IH. split.
  - intros [? ?]. constructor; auto.
  - intro H. inversion H; subst. auto.
Qed.

(** Every entry of a grammar is the one looked up. *)
Lemma Forall_lookup : forall (P : term -> Prop) g k v, Forall (fun kv : string * term => P (snd kv)) g ->
  lookup k g = Some v -> P v.
Proof.
  intros P g k v F L. apply lookup_In in L. rewrite Forall_forall in F. apply (F _ L).
Qed.

Lemma same_list : forall xs ys,
  Forall (fun x => forall y, maps_ok x -> maps_ok y -> (deep_equal x y = true <-> same x y)) xs ->
  Forall maps_ok xs -> Forall maps_ok ys ->
  ((fix go (xs ys : list term) {struct xs} : bool :=
      match xs, ys with
      | [], [] => true
      | x :: xs', y :: ys' => deep_equal x y && go xs' ys'
      | _, _ => false
      end) xs ys = true <-> Forall2 same xs ys).
Proof.
  induction xs as [|x xs IH]; intros ys F M N; destruct ys as [|y ys].
  - split; auto.
  - split; [discriminate|intro H; inversion H].
  - split; [discriminate|intro H; inversion H].
  - inversion F; subst. inversion M; subst. inversion N; subst.
    rewrite andb_true_iff, H1, IH by auto. split.
    + intros [? ?]; constructor; auto.
    + intro H'; inversion H'; subst; auto.
Qed.

Lemma same_rules : forall gx gy,
  (forall k x y, lookup k gx = Some x -> lookup k gy = Some y -> (deep_equal x y = true <-> same x y)) ->
  NoDup (keys gx) -> NoDup (keys gy) ->
  (deep_equal_grammar gx gy = true <-> same_grammar gx gy).
Proof.
  intros gx gy E N1 N2. unfold deep_equal_grammar, same_grammar.
  rewrite andb_true_iff, Nat.eqb_eq, forallb_forall. split.
  - intros [L F].
    assert (H : forall k v, lookup k gx = Some v -> exists w, lookup k gy = Some w /\ same v w).
    { intros k v K. specialize (F (k, v) (lookup_In _ _ _ K)). simpl in F.
      destruct (lookup k gy) as [w|] eqn:W; [|discriminate]. exists w. split; auto. now apply (E k). }
    split; auto. intros k K. apply lookup_None. intro I. apply lookup_None in K. apply K.
    assert (Inc : incl (keys gy) (keys gx)).
    { apply NoDup_length_incl; auto.
      - unfold keys. rewrite !map_length. lia.
      - intros k' I'. apply in_map_iff in I' as ([k1 v1] & <- & I').
        apply In_lookup in I'; auto. destruct (H _ _ I') as (w & W & _). simpl.
        apply lookup_In in W. apply in_map_iff. exists (k1, w). auto. }
    now apply Inc.
  - intros [H1 H2]. split.
    + assert (I1 : incl (keys gx) (keys gy)).
      { intros k I. destruct (lookup k gx) as [v|] eqn:K.
        - destruct (H1 _ _ K) as (w & W & _). apply lookup_In in W. apply in_map_iff. exists (k, w). auto.
        - apply lookup_None in K. contradiction. }
      assert (I2 : incl (keys gy) (keys gx)).
      { intros k I. destruct (lookup k gx) as [v|] eqn:K.
        - apply lookup_In in K. apply in_map_iff. exists (k, v). auto.
        - apply H2 in K. apply lookup_None in K. contradiction. }
      pose proof (NoDup_incl_length N1 I1). pose proof (NoDup_incl_length N2 I2).
      unfold keys in *. rewrite !map_length in *. lia.
    + intros [k v] I. simpl. apply In_lookup in I; auto. destruct (H1 _ _ I) as (w & W & S). rewrite W.
      now apply (E k).
Qed.

(** Deep equality is equality up to the order of rules. *)
Lemma deep_equal_same : forall a b, maps_ok a -> maps_ok b -> (deep_equal a b = true <-> same a b).
Proof.
  induction a using term_ind'; intros b Ma Mb; destruct b; try (split; [discriminate|intro H'; inversion H']; fail).
  - simpl. rewrite String.eqb_eq. split; intro H; [subst; constructor|inversion H; auto].
  - simpl. rewrite beqb_eq. split; intro H; [subst; constructor|inversion H; auto].
  - simpl. rewrite beqb_eq. split; intro H; [subst; constructor|inversion H; auto].
  - simpl. rewrite andb_true_iff, String.eqb_eq. split.
    + intros [-> H]. destruct d as [x|], default as [y|]; try discriminate; [apply beqb_eq in H; subst|]; constructor.
    + intro H. inversion H; subst. split; auto. destruct default; auto. apply beqb_refl.
  - simpl. rewrite String.eqb_eq. split; intro H; [subst; constructor|inversion H; auto].
  - apply maps_ok_list in Ma, Mb. etransitivity; [apply (same_list ts ts0 H Ma Mb)|].
    split; intro H'; [constructor; auto|inversion H'; auto].
  - apply maps_ok_list in Ma, Mb. etransitivity; [apply (same_list ts ts0 H Ma Mb)|].
    split; intro H'; [constructor; auto|inversion H'; auto].
  - apply maps_ok_list in Ma, Mb. etransitivity; [apply (same_list ts ts0 H Ma Mb)|].
    split; intro H'; [constructor; auto|inversion H'; auto].
  - simpl in *. destruct Ma, Mb. rewrite !andb_true_iff, IHa1, IHa2, assoc_eqb_eq, !eqb_true_iff by auto.
    split; intro H'; [decompose [and] H'; subst; constructor; auto|inversion H'; subst; tauto].
  - simpl in *. rewrite IHa by auto. split; intro H'; [constructor; auto|inversion H'; auto].
  - simpl in *. rewrite !andb_true_iff, !Nat.eqb_eq, IHa by auto.
    split; intro H'; [decompose [and] H'; subst; constructor; auto|inversion H'; subst; tauto].
  - simpl in *. rewrite !andb_true_iff, String.eqb_eq, IHa by auto.
    split; intro H'; [decompose [and] H'; subst; constructor; auto|inversion H'; subst; tauto].
  - rewrite deep_scoped. apply maps_ok_scoped in Ma as (M1 & M2 & M3), Mb as (N1 & N2 & N3).
    rewrite andb_true_iff, IHa, same_rules; auto.
    + unfold same_grammar. split; intro H'; [decompose [and] H'; subst; constructor; auto|inversion H'; subst; tauto].
    + intros k x y Kx Ky. pose proof (Forall_lookup (fun x => forall b, maps_ok x -> maps_ok b -> (deep_equal x b = true <-> same x b)) _ _ _ H Kx) as IHx.
      apply IHx; [exact (Forall_lookup maps_ok _ _ _ M3 Kx) | exact (Forall_lookup maps_ok _ _ _ N3 Ky)].
  - simpl in *. rewrite IHa by auto. split; intro H'; [constructor; auto|inversion H'; auto].
Qed.

Lemma deep_equal_grammar_same : forall D a b, diffable_grammar D a -> diffable_grammar D b ->
  (deep_equal_grammar a b = true <-> same_grammar a b).
Proof.
  intros D a b [Na Fa] [Nb Fb]. apply same_rules; auto.
  intros k x y Kx Ky. apply deep_equal_same.
  - eapply (Forall_lookup (fun t => maps_ok t /\ diffable D t)) in Kx; [|exact Fa]. tauto.
  - eapply (Forall_lookup (fun t => maps_ok t /\ diffable D t)) in Ky; [|exact Fb]. tauto.
Qed.

(** * The reports *)

(** What is known of two terms once they have been compared. *)
Definition compared (x y : term) : Prop :=
  exists d e, terms x y = Some d /\ tdiff_equal d = Some e /\ (e = true <-> same x y).

Definition termses := fix go (xs ys : list term) {struct xs} : option (list tdiff) :=
  match xs, ys with
  | x :: xs', y :: ys' =>
      match terms x y with
      | None => None
      | Some td =>
          match tdiff_equal td with
          | None => None
          | Some e => match go xs' ys' with None => None | Some ds => Some (if e then ds else td :: ds) end
          end
      end
  | _, _ => Some []
  end.

Lemma termses_ok : forall xs ys, Forall (fun x => forall y, In y ys -> compared x y) xs ->
  exists ds, termses xs ys = Some ds /\
    (Nat.eqb (length xs) (length ys) && Nat.eqb (length ds) 0 = true <-> Forall2 same xs ys).
Proof.
  induction xs as [|x xs IH]; intros ys F.
  - exists []. split; [destruct ys; auto|]. destruct ys; simpl; split; intro H; auto; try discriminate; inversion H.
  - destruct ys as [|y ys].
    + exists []. split; auto. simpl. split; [discriminate|intro H; inversion H].
    + inversion F as [|? ? F1 F2]; subst. destruct (F1 y (or_introl eq_refl)) as (d & e & T & E & S).
      destruct (IH ys) as (ds & T' & S').
      { eapply Forall_impl; [|exact F2]. simpl. auto. }
      exists (if e then ds else d :: ds). split; [simpl; now rewrite T, E, T'|].
      destruct e.
      * simpl. rewrite S'. split; intro H; [constructor; auto; now apply S|inversion H; auto].
      * simpl. rewrite andb_false_r. split; [discriminate|]. intro H. inversion H; subst. apply S in H3. discriminate.
Qed.

Lemma terms_list : forall xs ys, termses xs ys = None \/
  exists ds, termses xs ys = Some ds /\ terms (TSeq xs) (TSeq ys) = Some (DTerms (length xs) (length ys) ds) /\
    terms (TOneof xs) (TOneof ys) = Some (DTerms (length xs) (length ys) ds) /\
    terms (TStack xs) (TStack ys) = Some (DTerms (length xs) (length ys) ds).
Proof.
  intros xs ys. destruct (termses xs ys) as [ds|] eqn:E; auto. right. exists ds. split; auto.
  simpl. fold termses. now rewrite E.
Qed.

(** The rules of two grammars, compared one by one. *)
Lemma diff_rules_ok : forall a b g, NoDup (keys g) ->
  (forall k x y, In (k, x) g -> lookup k b = Some y -> compared x y) ->
  exists d, diff_rules a b g = Some d /\
    (forall k, In k (only_a d) <-> In k (keys g) /\ ~ In k (keys b)) /\
    only_b d = filter (fun k => negb (has k a)) (keys b) /\
    (forall k, In k (keys (prods d)) <-> exists x y, In (k, x) g /\ lookup k b = Some y /\ ~ same x y).
Proof.
  intros a b. induction g as [|[k v] g IH]; intros ND C.
  - eexists. split; [reflexivity|]. simpl. repeat split; auto; try tauto; intros H; decompose [ex and] H; contradiction.
  - simpl in ND. inversion ND as [|? ? N1 N2]; subst.
    destruct IH as (d & D & A & B & P); auto.
    { intros k0 x y I. apply (C k0). now right. }
    simpl. destruct (lookup k b) as [w|] eqn:W.
    + destruct (C k v w) as (td & e & T & E & S); [left; auto|auto|]. rewrite T, E, D.
      exists (if e then d else GDiff (only_a d) (only_b d) ((k, td) :: prods d)).
      split; [destruct e; reflexivity|].
      replace (only_a (if e then d else GDiff (only_a d) (only_b d) ((k, td) :: prods d))) with (only_a d) by (destruct e; auto).
      replace (only_b (if e then d else GDiff (only_a d) (only_b d) ((k, td) :: prods d))) with (only_b d) by (destruct e; auto).
      split; [|split; auto].
      * intro k0. rewrite A. split; [intros []; auto|]. intros [[<-|I] H]; auto.
        exfalso. apply H. apply lookup_In in W. apply in_map_iff. exists (k, w). auto.
      * intro k0. split.
        -- intro I. destruct e.
           ++ apply P in I as (x & y & I & K & S'). exists x, y. auto.
           ++ simpl in I. destruct I as [<-|I].
              ** exists v, w. split; [now left|]. split; auto. intro S'. apply S in S'. discriminate.
              ** apply P in I as (x & y & I & K & S'). exists x, y. auto.
        -- intros (x & y & I & K & S'). destruct I as [I|I].
           ++ inversion I; subst. rewrite W in K. inversion K; subst. destruct e; [exfalso; apply S'; now apply S|].
              simpl. auto.
           ++ assert (In k0 (keys (prods d))) by (apply P; eauto). destruct e; simpl; auto.
    + rewrite D. eexists. split; [reflexivity|]. simpl. split; [|split; auto].
      * intro k0. rewrite A. split.
        -- intros [<-|[I H]]; [split; [now left|now apply lookup_None]|split; [now right|auto]].
        -- intros [[<-|I] H]; auto.
      * intro k0. rewrite P. split.
        -- intros (x & y & I & K & S). exists x, y. auto.
        -- intros (x & y & [I|I] & K & S); [inversion I; subst; congruence|eauto].
Qed.

Lemma length_nil : forall A (l : list A), length l = 0%nat <-> forall x, ~ In x l.
Proof.
  intros A l. destruct l as [|x l]; simpl; split; intro H; auto; try discriminate.
  exfalso. apply (H x). auto.
Qed.

Lemma filter_nil_has : forall A B (a : list (string * A)) (b : list (string * B)),
  (forall k, ~ In k (filter (fun k => negb (has k a)) (keys b))) <-> incl (keys b) (keys a).
Proof.
  intros A B a b. split.
  - intros H k I. destruct (has k a) eqn:E; [now apply has_true|]. exfalso. apply (H k).
    apply filter_In. rewrite E. auto.
  - intros H k I. apply filter_In in I as [I E]. apply H in I. apply has_true in I. rewrite I in E. discriminate.
Qed.

(** The summary of the comparison of two grammars. *)
Lemma gdiff_ok : forall a b, NoDup (keys a) -> NoDup (keys b) ->
  (forall k x y, In (k, x) a -> lookup k b = Some y -> compared x y) ->
  (forall k x y, In (k, x) a -> lookup k b = Some y -> (deep_equal x y = true <-> same x y)) ->
  exists d, diff_rules a b a = Some d /\ grammars a b = Some d /\
    (gdiff_equal d = true <-> same_grammar a b) /\
    (forall k, In k (only_a d) <-> In k (keys a) /\ ~ In k (keys b)) /\
    (forall k, In k (only_b d) <-> In k (keys b) /\ ~ In k (keys a)) /\
    (forall k, In k (keys (prods d)) <-> exists x y, In (k, x) a /\ In (k, y) b /\ ~ same x y).
Proof.
  intros a b Na Nb C E. destruct (diff_rules_ok a b a Na C) as (d & D & A & B & P).
  assert (Eq : gdiff_equal d = true <-> same_grammar a b).
  { unfold gdiff_equal. rewrite !andb_true_iff, !Nat.eqb_eq.
    assert (L : length (prods d) = length (keys (prods d))) by (unfold keys; now rewrite map_length).
    rewrite L, !length_nil. rewrite B, filter_nil_has. unfold same_grammar. split.
    - intros [[H1 H2] H3]. split.
      + intros k v K. destruct (lookup k b) as [w|] eqn:W.
        * exists w. split; auto. destruct (C k v w) as (td & e & T & Te & S); auto; [now apply lookup_In|].
          destruct e; [now apply S|]. exfalso. apply (H3 k). apply P. exists v, w. repeat split; auto; [now apply lookup_In|].
          intro S'. apply S in S'. discriminate.
        * exfalso. apply (H1 k). apply A. split; [|now apply lookup_None].
          apply lookup_In in K. apply in_map_iff. exists (k, v). auto.
      + intros k K. apply lookup_None. apply lookup_None in K. intro I. apply K. now apply H2.
    - intros [H1 H2]. split; [split|].
      + intros k I. apply A in I as [I N]. apply in_map_iff in I as ([k' v] & <- & I). simpl in *.
        apply In_lookup in I; auto. destruct (H1 _ _ I) as (w & W & _). apply lookup_None in N. congruence.
      + intros k I. destruct (lookup k a) as [v|] eqn:K; [apply lookup_In in K; apply in_map_iff; exists (k, v); auto|].
        apply H2 in K. apply lookup_None in K. contradiction.
      + intros k I. apply P in I as (x & y & I & K & S). apply In_lookup in I; auto.
        destruct (H1 _ _ I) as (w & W & S'). congruence. }
  exists d. split; auto. split.
  { unfold grammars. rewrite D. assert (G : gdiff_equal d = deep_equal_grammar a b).
    { apply eq_true_iff_eq. rewrite Eq. symmetry. apply same_rules; auto.
      intros k x y Kx. apply (E k). now apply lookup_In. }
    rewrite G, Bool.eqb_reflx. reflexivity. }
  split; auto. split; auto. split.
  - intro k. rewrite B, filter_In. rewrite negb_true_iff. split.
    + intros [I H]. split; auto. intro F. apply has_true in F. congruence.
    + intros [I H]. split; auto. destruct (has k a) eqn:F; auto. apply has_true in F. contradiction.
  - intro k. rewrite P. split; intros (x & y & I & K & S); exists x, y; repeat split; auto.
    + now apply lookup_In.
    + now apply In_lookup.
Qed.

(** The nested loop of the scoped case is [diff_rules]. *)
Lemma terms_scoped : forall x y gx gy, terms (TScoped x gx) (TScoped y gy) =
  match terms x y with
  | None => None
  | Some t => match grammars gx gy with
              | None => None
              | Some d => Some (DScoped t (only_a d) (only_b d) (prods d))
              end
  end.
Proof.
  intros x y gx gy. unfold grammars. simpl. destruct (terms x y) as [t|]; auto.
  match goal with |- match ?f gx with _ => _ end = _ =>
    assert (E : forall g, f g = diff_rules gx gy g); [|rewrite E] end.
  { induction g as [|[k v] g IH]; auto. simpl. rewrite IH. reflexivity. }
  destruct (diff_rules gx gy gx) as [d|]; auto.
  destruct (Bool.eqb (gdiff_equal d) (deep_equal_grammar gx gy)); auto.
Qed.

Lemma terms_ok : forall D a b, maps_ok a -> maps_ok b -> diffable D a -> diffable D b -> compared a b.
Proof.
  intro D. induction a using term_ind'; intros b Ma Mb Da Db;
    (destruct b; try contradiction; try (exists DTypes, false; repeat split; auto; [discriminate|intro H'; inversion H']; fail)).
  - exists (DRules r r0), (String.eqb r r0). repeat split; auto; intro H.
    + apply String.eqb_eq in H. subst. constructor.
    + inversion H; subst. apply String.eqb_refl.
  - exists (DSes s s0), (beqb s s0). repeat split; auto; intro H.
    + apply beqb_eq in H. subst. constructor.
    + inversion H; subst. apply beqb_refl.
  - exists (DREs s s0), (beqb s s0). repeat split; auto; intro H.
    + apply beqb_eq in H. subst. constructor.
    + inversion H; subst. apply beqb_refl.
  - exists (DRefs i ident d default). simpl in Da, Db. simpl tdiff_equal. destruct (String.eqb_spec i ident) as [->|N].
    + destruct d as [x|], default as [y|]; try congruence.
      * exists (beqb x y). repeat split; auto; intro H.
        -- apply beqb_eq in H. subst. constructor.
        -- inversion H; subst. apply beqb_refl.
      * exists true. repeat split; auto. intro; constructor.
    + exists false. repeat split; auto; [discriminate|]. intro H. inversion H. congruence.
  - apply maps_ok_list in Ma, Mb. apply diffable_list in Da, Db.
    destruct (termses_ok ts ts0) as (ds & T & S).
    { rewrite Forall_forall in *. intros x Ix y Iy. apply H; auto. }
    destruct (terms_list ts ts0) as [N|(ds' & T' & E & _)]; [congruence|]. rewrite T in T'. inversion T'; subst ds'.
    eexists _, _. split; [exact E|]. split; [reflexivity|]. rewrite S. split; intro H'; [constructor; auto|inversion H'; auto].
  - apply maps_ok_list in Ma, Mb. apply diffable_list in Da, Db.
    destruct (termses_ok ts ts0) as (ds & T & S).
    { rewrite Forall_forall in *. intros x Ix y Iy. apply H; auto. }
    destruct (terms_list ts ts0) as [N|(ds' & T' & _ & E & _)]; [congruence|]. rewrite T in T'. inversion T'; subst ds'.
    eexists _, _. split; [exact E|]. split; [reflexivity|]. rewrite S. split; intro H'; [constructor; auto|inversion H'; auto].
  - apply maps_ok_list in Ma, Mb. apply diffable_list in Da, Db.
    destruct (termses_ok ts ts0) as (ds & T & S).
    { rewrite Forall_forall in *. intros x Ix y Iy. apply H; auto. }
    destruct (terms_list ts ts0) as [N|(ds' & T' & _ & _ & E)]; [congruence|]. rewrite T in T'. inversion T'; subst ds'.
    eexists _, _. split; [exact E|]. split; [reflexivity|]. rewrite S. split; intro H'; [constructor; auto|inversion H'; auto].
  - simpl in Ma, Mb, Da, Db. destruct (IHa1 b1) as (d1 & e1 & T1 & E1 & S1); try tauto.
    destruct (IHa2 b2) as (d2 & e2 & T2 & E2 & S2); try tauto.
    exists (DDelim d1 d2 a3 a cs canStart ce canEnd).
    exists (e1 && e2 && (assoc_eqb a3 a && Bool.eqb cs canStart && Bool.eqb ce canEnd)).
    split; [simpl; now rewrite T1, T2|]. split; [simpl; rewrite E1, E2; destruct e1, e2; reflexivity|].
    rewrite !andb_true_iff, S1, S2, assoc_eqb_eq, !eqb_true_iff.
    split; intro H'; [decompose [and] H'; subst; constructor; auto|inversion H'; subst; tauto].
  - simpl in Ma, Mb, Da, Db. destruct (IHa b) as (d1 & e1 & T1 & E1 & S1); auto.
    exists d1, e1. split; auto. split; auto. rewrite S1. split; intro H'; [constructor; auto|inversion H'; auto].
  - simpl in Ma, Mb, Da, Db. destruct (IHa b) as (d1 & e1 & T1 & E1 & S1); auto.
    exists (DQuant d1 mn qmin mx qmax), (e1 && (Nat.eqb mn qmin && Nat.eqb mx qmax)).
    split; [simpl; now rewrite T1|]. split; [simpl; rewrite E1; destruct e1; reflexivity|].
    rewrite !andb_true_iff, S1, !Nat.eqb_eq.
    split; intro H'; [decompose [and] H'; subst; constructor; auto|inversion H'; subst; tauto].
  - simpl in Ma, Mb, Da, Db. destruct (IHa b) as (d1 & e1 & T1 & E1 & S1); auto.
    exists (DNamed n name d1), (String.eqb n name && e1).
    split; [simpl; now rewrite T1|]. split; [simpl; rewrite E1; destruct (String.eqb n name); reflexivity|].
    rewrite !andb_true_iff, S1, String.eqb_eq.
    split; intro H'; [decompose [and] H'; subst; constructor; auto|inversion H'; subst; tauto].
  - apply maps_ok_scoped in Ma as (M1 & M2 & M3), Mb as (N1 & N2 & N3).
    apply diffable_scoped in Da as (A1 & A2), Db as (B1 & B2).
    destruct (IHa b) as (d1 & e1 & T1 & E1 & S1); auto.
    destruct (gdiff_ok g g0) as (d & _ & G & Eq & _); auto.
    + intros k x y I K. apply In_lookup in I; auto.
      pose proof (Forall_lookup (fun x => forall b, maps_ok x -> maps_ok b -> diffable D x -> diffable D b -> compared x b) _ _ _ H I) as IHx.
      apply IHx; [exact (Forall_lookup maps_ok _ _ _ M3 I) | exact (Forall_lookup maps_ok _ _ _ N3 K)
        | exact (Forall_lookup (diffable D) _ _ _ A2 I) | exact (Forall_lookup (diffable D) _ _ _ B2 K)].
    + intros k x y I K. apply In_lookup in I; auto.
      apply deep_equal_same; [exact (Forall_lookup maps_ok _ _ _ M3 I) | exact (Forall_lookup maps_ok _ _ _ N3 K)].
    + exists (DScoped d1 (only_a d) (only_b d) (prods d)), (e1 && gdiff_equal d).
      split; [rewrite terms_scoped, T1, G; reflexivity|].
      split; [simpl; rewrite E1; destruct d; destruct e1; reflexivity|].
      rewrite andb_true_iff, S1, Eq. unfold same_grammar.
      split; intro H'; [decompose [and] H'; constructor; auto|inversion H'; subst; tauto].
  - simpl in Ma, Mb, Da, Db. destruct (IHa b) as (d1 & e1 & T1 & E1 & S1); auto.
    exists d1, e1. split; auto. split; auto. rewrite S1. split; intro H'; [constructor; auto|inversion H'; auto].
Qed.

(** [Grammars] on comparable grammars. *)
Lemma grammars_ok : forall D a b, diffable_grammar D a -> diffable_grammar D b ->
  exists d, grammars a b = Some d /\
    (gdiff_equal d = true <-> same_grammar a b) /\
    (forall k, In k (only_a d) <-> In k (keys a) /\ ~ In k (keys b)) /\
    (forall k, In k (only_b d) <-> In k (keys b) /\ ~ In k (keys a)) /\
    (forall k, In k (keys (prods d)) <-> exists x y, In (k, x) a /\ In (k, y) b /\ ~ same x y).
Proof.
  intros D a b [Na Fa] [Nb Fb].
  assert (L : forall g k x, Forall (fun kv : string * term => maps_ok (snd kv) /\ diffable D (snd kv)) g ->
    In (k, x) g -> maps_ok x /\ diffable D x).
  { intros g k x F I. rewrite Forall_forall in F. apply (F _ I). }
  destruct (gdiff_ok a b Na Nb) as (d & _ & H).
  - intros k x y I K. apply lookup_In in K. destruct (L _ _ _ Fa I), (L _ _ _ Fb K). apply (terms_ok D); auto.
  - intros k x y I K. apply lookup_In in K. destruct (L _ _ _ Fa I), (L _ _ _ Fb K). apply deep_equal_same; auto.
  - exists d. exact H.
Qed.

(** * Trees *)

Definition diff_children := fix go (i : nat) (xs ys : list tree) {struct xs} : option (list (nat * ndiff)) :=
  match xs, ys with
  | x :: xs', y :: ys' =>
      match x with
      | Node _ _ _ =>
          match y with
          | Node ty ey cy =>
              match node_diff x (ty, ey, cy) with
              | None => None
              | Some d =>
                  match ndiff_equal d with
                  | None => None
                  | Some e => match go (S i) xs' ys' with
                              | None => None
                              | Some ds => Some (if e then ds else (i, d) :: ds)
                              end
                  end
              end
          | _ => None
          end
      | _ => go (S i) xs' ys'
      end
  | _, _ => Some []
  end.

Lemma extra_eqb_ok : forall x y, (forall b, x <> XBranch b) -> exists e, extra_eqb x y = Some e /\ (e = true <-> x = y).
Proof.
  intros x y H. destruct x as [|m|a|bx], y as [|n|b|by_]; simpl; try (exists false; split; [reflexivity|split; discriminate]).
  - exists true. split; auto. split; auto.
  - exists (Nat.eqb m n). split; auto. rewrite Nat.eqb_eq. split; congruence.
  - exists (assoc_eqb a b). split; auto. rewrite assoc_eqb_eq. split; congruence.
  - destruct (H bx eq_refl).
Qed.

Lemma node_diff_ok : forall a tb xb cb, (exists t x cs, a = Node t x cs) -> facing a (Node tb xb cb) ->
  exists d e, node_diff a (tb, xb, cb) = Some d /\ ndiff_equal d = Some e /\ (e = true <-> same_nodes a (Node tb xb cb)).
Proof.
  induction a using tree_ind'; intros tb xb cb (t0 & x0 & cs0 & E) F; try discriminate. clear t0 x0 cs0 E.
  inversion F as [? ? ? ? ? ? NB FA| |]; subst.
  assert (CH : forall i ds, facing_all cs ds -> exists l, diff_children i cs ds = Some l /\
     (length cs = length ds -> (Nat.eqb (length l) 0 = true <-> Forall2 same_nodes cs ds))).
  { clear FA F. induction H as [|c cs Hc Hcs IH]; intros i ds FA.
    - exists []. split; [destruct ds; auto|]. destruct ds; simpl; [|discriminate]. intros _. split; auto.
    - destruct ds as [|d ds]; [exists []; split; [reflexivity|discriminate]|].
      inversion FA as [| |? ? ? ? F1 F2]; subst. destruct (IH (S i) ds F2) as (l & L & S).
      destruct c as [tc xc cc|s|].
      + destruct d as [td xd cd|s|]; try (inversion F1; fail).
        destruct (Hc td xd cd) as (nd & e & N1 & N2 & N3); eauto.
        exists (if e then l else (i, nd) :: l). split.
        * change (match node_diff (Node tc xc cc) (td, xd, cd) with
                  | None => None
                  | Some d => match ndiff_equal d with
                              | None => None
                              | Some e => match diff_children (Datatypes.S i) cs ds with
                                          | None => None
                                          | Some ds => Some (if e then ds else (i, d) :: ds)
                                          end
                              end
                  end = Some (if e then l else (i, nd) :: l)).
          rewrite N1, N2, L. reflexivity.
        * intro LE. simpl in LE. destruct e.
          -- rewrite S by lia. split; intro Q; [constructor; auto; now apply N3|inversion Q; auto].
          -- simpl. split; [discriminate|]. intro Q. inversion Q as [|? ? ? ? Q1 Q2]; subst. apply N3 in Q1. discriminate.
      + exists l. split; [exact L|]. intro LE. simpl in LE. rewrite S by lia.
        split; intro Q; [constructor; auto; constructor|inversion Q; auto].
      + exists l. split; [exact L|]. intro LE. simpl in LE. rewrite S by lia.
        split; intro Q; [constructor; auto; constructor|inversion Q; auto]. }
  destruct (CH O cb FA) as (l & L & S). destruct (extra_eqb_ok x xb NB) as (ex & X1 & X2).
  exists (NDiff (tag, x, cs) (tb, xb, cb) l). eexists. split; [|split].
  - simpl. unfold diff_children in L. rewrite L. reflexivity.
  - simpl. rewrite X1. instantiate (1 := Nat.eqb (length cs) (length cb) && String.eqb tag tb && (ex && Nat.eqb (length l) 0)).
    destruct (Nat.eqb (length cs) (length cb) && String.eqb tag tb); [destruct ex|]; reflexivity.
  - rewrite !andb_true_iff, Nat.eqb_eq, String.eqb_eq, X2. split.
    + intros [[LE ->] [-> Q]]. apply S in Q; auto. constructor; auto.
    + intro Q. inversion Q as [? ? ? ? Q1 Q2| |]; subst. assert (length cs = length cb) by (clear -Q2; induction Q2; simpl; auto).
      repeat split; auto. now apply S.
Qed.

(** What an empty report means for two whole nodes. *)
Lemma nodes_report : forall t x cs tb xb cb, facing (Node t x cs) (Node tb xb cb) ->
  exists d e, node_diff (Node t x cs) (tb, xb, cb) = Some d /\ ndiff_equal d = Some e /\
    (e = true <-> same_nodes (Node t x cs) (Node tb xb cb)).
Proof. intros. apply node_diff_ok; eauto. Qed.
