(** Compiling a grammar does not depend on the order in which its maps are listed. *)
From Verif Require Import Base Scanner Syntax Engine Resolve Compile Parse PegSpec CompileProofs PegProofs TopProofs StackSpec StackProofs.
Local Open Scope nat_scope.

(** * Lists of rules *)

Lemma Forall2_imp : forall A B (R Q : A -> B -> Prop) l m, (forall x y, R x y -> Q x y) -> Forall2 R l m -> Forall2 Q l m.
Proof. induction 2; auto. Qed.

Lemma ctraverse_rules : forall (f : term -> cres term) g g1,
  ctraverse (fun kv : string * term => cbind (f (snd kv)) (fun u => COk (fst kv, u))) g = COk g1 <->
  Forall2 (fun kv kv1 : string * term => fst kv = fst kv1 /\ f (snd kv) = COk (snd kv1)) g g1.
Proof.
  intros f g g1. rewrite ctraverse_ok. split; intros H; (eapply Forall2_imp; [|exact H]); intros [a t] [b u]; simpl.
  - intros E. apply cbind_ok in E as (x & -> & E). inversion E; auto.
  - intros [-> ->]. reflexivity.
Qed.

Lemma Forall2_keys : forall (R : string * term -> string * term -> Prop) g g1, (forall x y, R x y -> fst x = fst y) ->
  Forall2 R g g1 -> keys g1 = keys g.
Proof. intros R g g1 H F. induction F as [|x y g g1 X F IH]; auto. unfold keys in *. simpl. rewrite (H _ _ X), IH. auto. Qed.

Lemma Forall2_lookup : forall (f : term -> cres term) g g1,
  Forall2 (fun kv kv1 : string * term => fst kv = fst kv1 /\ f (snd kv) = COk (snd kv1)) g g1 ->
  forall r, match lookup r g with
            | Some t => exists u, lookup r g1 = Some u /\ f t = COk u
            | None => lookup r g1 = None
            end.
Proof.
  intros f g g1 F r. induction F as [|[a t] [b u] g g1 [E X] F IH]; simpl; auto. simpl in E, X. subst b.
  destruct (String.eqb r a); eauto.
Qed.

Lemma same_keys_len : forall A B (g : list (string * A)) (g' : list (string * B)), NoDup (keys g) -> NoDup (keys g') ->
  (forall r, lookup r g = None <-> lookup r g' = None) -> length g = length g'.
Proof.
  intros A B g g' N N' H.
  assert (P : Permutation (keys g) (keys g')).
  { apply NoDup_Permutation; auto. intros x. specialize (H x). rewrite !lookup_None in H.
    destruct (in_dec string_dec x (keys g)), (in_dec string_dec x (keys g')); tauto. }
  apply Permutation_length in P. unfold keys in P. rewrite !map_length in P. auto.
Qed.

Lemma same_map_none : forall g g', same_map g g' -> forall r, lookup r g = None <-> lookup r g' = None.
Proof.
  intros g g' S r. inversion S as [? ? N N' C S1 S2]; subst. split; auto. intros L.
  destruct (lookup r g) as [t|] eqn:L1; auto. destruct (S2 _ _ L1) as (t' & L2 & _). congruence.
Qed.
Lemma same_map_back : forall g g' r t', same_map g g' -> lookup r g' = Some t' -> exists t, lookup r g = Some t /\ reordered t t'.
Proof.
  intros g g' r t' S L. pose proof (same_map_none _ _ S r) as NN. inversion S as [? ? N N' C S1 S2]; subst.
  destruct (lookup r g) as [t|] eqn:L1.
  - destruct (S2 _ _ L1) as (t2 & L2 & R). rewrite L in L2. inversion L2; subst. eauto.
  - rewrite (proj1 NN eq_refl) in L. discriminate.
Qed.

Lemma reordered_stack : forall t t' ls, reordered t t' -> t = TStack ls -> exists ls', t' = TStack ls' /\ Forall2 reordered ls ls'.
Proof. intros t t' ls R E. subst. inversion R; subst; eauto. Qed.
Lemma reordered_stack_r : forall t t' ls', reordered t t' -> t' = TStack ls' -> exists ls, t = TStack ls /\ Forall2 reordered ls ls'.
Proof. intros t t' ls' R E. subst. inversion R; subst; eauto. Qed.

Lemma clear_names_same : forall g g', same_map g g' -> clear_names g'.
Proof.
  intros g g' S r ls i L I. pose proof S as S0. inversion S as [? ? N N' C S1 S2]; subst.
  destruct (same_map_back _ _ _ _ S L) as (t & L1 & R). destruct (reordered_stack_r _ _ _ R eq_refl) as (ls0 & -> & F).
  apply (same_map_none _ _ S0). eapply C; eauto. rewrite (Forall2_len _ _ _ F). auto.
Qed.

(** * Preparing nested grammars *)

Lemma prep_stack : forall t u, prep t = COk u -> is_stack u = is_stack t /\ (is_stack t = true -> u = t).
Proof.
  intros t u H. destruct t; simpl in H; try (inversion H; subst; simpl; split; auto; discriminate);
    repeat (match type of H with cbind _ _ = _ => apply cbind_ok in H as (? & ? & H) end);
    inversion H; subst; simpl; split; auto; discriminate.
Qed.

Lemma put_reordered : forall x t u, put x t u -> forall t', reordered t t' -> exists u', put x t' u' /\ reordered u u'.
Proof.
  fix IH 4. intros x t u P t' R.
  assert (L : forall ts us, Forall2 (put x) ts us -> forall ts', Forall2 reordered ts ts' ->
    Forall2 (fun t u => forall t', reordered t t' -> exists u', put x t' u' /\ reordered u u') ts us ->
    exists us', Forall2 (put x) ts' us' /\ Forall2 reordered us us').
  { induction 1; intros ts' F2 F3; inversion F2; inversion F3; subst; [exists []; split; auto|].
    match goal with A : reordered ?a ?b, B : forall t', reordered ?a t' -> _ |- _ => destruct (B _ A) as (u1 & ? & ?) end.
    match goal with A : Forall2 reordered ?a ?b, B : forall ts', Forall2 reordered ?a ts' -> _ |- _ => destruct (B _ A) as (us1 & ? & ?) end; auto.
    exists (u1 :: us1). split; auto. }
  destruct P; inversion R; subst; try (eexists; split; econstructor; eauto; fail).
  - assert (F : Forall2 (fun t u => forall t', reordered t t' -> exists u', put x t' u' /\ reordered u u') ts us).
    { clear -IH H. induction H; constructor; auto. intros t' R. exact (IH _ _ _ H t' R). }
    destruct (L _ _ H _ H1 F) as (us' & A & B). exists (TSeq us'). split; constructor; auto.
  - assert (F : Forall2 (fun t u => forall t', reordered t t' -> exists u', put x t' u' /\ reordered u u') ts us).
    { clear -IH H. induction H; constructor; auto. intros t' R. exact (IH _ _ _ H t' R). }
    destruct (L _ _ H _ H1 F) as (us' & A & B). exists (TOneof us'). split; constructor; auto.
  - destruct (IH _ _ _ P1 _ H5) as (u1 & A1 & B1). destruct (IH _ _ _ P2 _ H6) as (u2 & A2 & B2).
    exists (TDelim u1 u2 a cs ce). split; constructor; auto.
  - destruct (IH _ _ _ P _ H0) as (u1 & A1 & B1). exists (TLookAhead u1). split; constructor; auto.
  - destruct (IH _ _ _ P _ H3) as (u1 & A1 & B1). exists (TQuant u1 mn mx). split; constructor; auto.
  - destruct (IH _ _ _ P _ H2) as (u1 & A1 & B1). exists (TNamed n u1). split; constructor; auto.
  - destruct (IH _ _ _ P _ H0) as (u1 & A1 & B1). exists u1. split; auto. constructor; auto.
Qed.

Lemma put_not_stack : forall x t u ls, put x t u -> u <> TStack ls.
Proof. intros x t u ls P. induction P; try discriminate; auto. Qed.

Lemma Forall2_nth : forall A B (R : A -> B -> Prop) l l', Forall2 R l l' -> forall i y, nth_error l' i = Some y ->
  exists x, nth_error l i = Some x /\ R x y.
Proof.
  induction 1 as [|x y l l' X F IH]; intros i z N; [destruct i; discriminate|].
  destruct i as [|i]; simpl in *; [inversion N; subst; eauto|eauto].
Qed.

Lemma unstacked_no_stack : forall g g2 r ls, clear_names g -> unstacked g g2 -> lookup r g2 = Some (TStack ls) -> ls = [].
Proof.
  intros g g2 r ls CL U L.
  assert (LAYER : forall r0 ls0 i, lookup r0 g = Some (TStack ls0) -> i < length ls0 -> r = level r0 i -> False).
  { intros r0 ls0 i LG I ->. destruct (nth_error ls0 i) as [t|] eqn:N; [|apply nth_error_None in N; lia].
    destruct (us_layer _ _ U _ _ _ _ LG N) as (u & L1 & P). rewrite L in L1. inversion L1; subst. eapply put_not_stack; eauto. }
  destruct (us_only _ _ U r) as [N|(r0 & ls0 & i & LG & I & E)]; [congruence| |exfalso; eapply LAYER; eauto; lia].
  destruct (lookup r g) as [t|] eqn:LG; [|congruence].
  destruct t as [| | | | | | |[|l l0]| | | | | |]; try (pose proof (us_rule _ _ U _ _ LG) as X; rewrite L in X; assert (Some (TStack ls) = Some _) as Y by (apply X; discriminate); inversion Y; auto; fail).
  exfalso. apply (LAYER r (l :: l0) 0); auto. simpl. lia.
Qed.

Lemma is_nonempty_stack_dec : forall t, (exists l ls, t = TStack (l :: ls)) \/ forall l ls, t <> TStack (l :: ls).
Proof. intros t. destruct t as [| | | | | | |[|l ls]| | | | | |]; try (right; discriminate). left; eauto. Qed.

Lemma resolve_stacks_same : forall g g' g2, same_map g g' -> resolve_stacks g = COk g2 ->
  exists g2', resolve_stacks g' = COk g2' /\ same_map g2 g2'.
Proof.
  intros g g' g2 S H. pose proof (clear_names_same _ _ S) as C'. pose proof S as S0. inversion S0 as [? ? N N' C S1 S2]; subst.
  assert (OK : exists g2', resolve_stacks g' = COk g2').
  { unfold resolve_stacks in *. destruct (existsb (fun kv => is_stack (snd kv)) g') eqn:X; [|eauto].
    apply existsb_exists in X as ([r t'] & IN & ST). simpl in ST. destruct t'; try discriminate.
    destruct (same_map_back _ _ r _ S (In_lookup _ _ _ N' IN)) as (t & LG & R).
    destruct (reordered_stack_r _ _ _ R eq_refl) as (ls0 & -> & _).
    assert (existsb (fun kv : string * term => is_stack (snd kv)) g = true) as EX.
    { apply existsb_exists. exists (r, TStack ls0). split; auto. apply lookup_In; auto. }
    rewrite EX in H. apply loop_ok. intros r1 ls1 i t1 I1 N1.
    destruct (same_map_back _ _ r1 _ S (In_lookup _ _ _ N' I1)) as (t2 & LG2 & R2).
    destruct (reordered_stack_r _ _ _ R2 eq_refl) as (ls2 & -> & F2).
    destruct (Forall2_nth _ _ _ _ _ F2 _ _ N1) as (t3 & N3 & R3).
    destruct (loop_layers _ _ _ H _ _ _ _ (lookup_In _ _ _ LG2) N3) as (u & P).
    destruct (put_reordered _ _ _ P _ R3) as (u' & P' & _). exists u'. rewrite <- (Forall2_len _ _ _ F2). auto. }
  destruct OK as (g2' & H'). exists g2'. split; auto.
  destruct (resolve_stacks_spec _ _ N C H) as (U & N2 & _). destruct (resolve_stacks_spec _ _ N' C' H') as (U' & N2' & _).
  assert (LAYER : forall r ls i t, lookup r g = Some (TStack ls) -> nth_error ls i = Some t ->
    exists u u', lookup (level r i) g2 = Some u /\ lookup (level r i) g2' = Some u' /\ reordered u u').
  { intros r ls i t L NT. destruct (us_layer _ _ U _ _ _ _ L NT) as (u & L1 & P1).
    destruct (S2 _ _ L) as (t' & L' & R). destruct (reordered_stack _ _ _ R eq_refl) as (ls' & -> & F).
    destruct (nth_error ls' i) as [t'|] eqn:NT'; [|exfalso; apply nth_error_None in NT'; rewrite <- (Forall2_len _ _ _ F) in NT'; apply (proj2 (nth_error_None ls i)) in NT'; congruence].
    destruct (Forall2_nth _ _ _ _ _ F _ _ NT') as (t0 & NT0 & R0). rewrite NT in NT0. inversion NT0; subst t0.
    destruct (us_layer _ _ U' _ _ _ _ L' NT') as (u' & L2 & P2).
    destruct (put_reordered _ _ _ P1 _ R0) as (v & P3 & R3). rewrite (Forall2_len _ _ _ F) in P3.
    rewrite (put_fun _ _ _ _ P2 P3) in *. eauto 6. }
  constructor; auto.
  - intros r ls i L I. rewrite (unstacked_no_stack _ _ _ _ C U L) in I. simpl in I. lia.
  - intros r L. destruct (lookup r g2') as [u'|] eqn:L'; auto. exfalso.
    destruct (us_only _ _ U' r) as [X|(r0 & ls & i & LG & I & E)]; [congruence| |].
    + destruct (lookup r g') as [t'|] eqn:LG'; [|congruence]. destruct (same_map_back _ _ _ _ S LG') as (t & LG & R).
      destruct (is_nonempty_stack_dec t) as [(l & ls & ->)|NS].
      * destruct (LAYER r _ 0 l LG eq_refl) as (u1 & u2 & A & _). simpl in A. congruence.
      * rewrite (us_rule _ _ U _ _ LG NS) in L. discriminate.
    + destruct (same_map_back _ _ _ _ S LG) as (t & LG2 & R). destruct (reordered_stack_r _ _ _ R eq_refl) as (ls0 & -> & F).
      destruct (nth_error ls0 i) as [t|] eqn:NT; [|apply nth_error_None in NT; rewrite (Forall2_len _ _ _ F) in NT; lia].
      destruct (LAYER _ _ _ _ LG2 NT) as (u1 & u2 & A & _). congruence.
  - intros r u L.
    assert (DONE : forall r0 ls i, lookup r0 g = Some (TStack ls) -> i < length ls -> r = level r0 i ->
      exists t', lookup r g2' = Some t' /\ reordered u t').
    { intros r0 ls i LG I ->. destruct (nth_error ls i) as [t|] eqn:NT; [|apply nth_error_None in NT; lia].
      destruct (LAYER _ _ _ _ LG NT) as (u1 & u2 & A & B & R). rewrite L in A. inversion A; subst. eauto. }
    destruct (us_only _ _ U r) as [X|(r0 & ls & i & LG & I & E)]; [congruence| |eapply DONE; eauto; lia].
    destruct (lookup r g) as [t|] eqn:LG; [|congruence].
    destruct (is_nonempty_stack_dec t) as [(l & ls & ->)|NS]; [apply (DONE r (l :: ls) 0); auto; simpl; lia|].
    rewrite (us_rule _ _ U _ _ LG NS) in L. inversion L; subst. destruct (S2 _ _ LG) as (t' & LG' & R). exists t'. split; auto.
    apply (us_rule _ _ U'); auto. intros l ls ->. destruct (reordered_stack_r _ _ _ R eq_refl) as (ls0 & -> & F). inversion F; subst. eapply NS; eauto.
Qed.

Definition prep_rules (g : grammar) := ctraverse (fun kv => cbind (prep (snd kv)) (fun u => COk (fst kv, u))) g.

Lemma prep_rules_same : forall g g', same_map g g' ->
  (forall r t t', lookup r g = Some t -> lookup r g' = Some t' -> forall u, prep t = COk u -> exists u', prep t' = COk u' /\ reordered u u') ->
  forall g1, prep_rules g = COk g1 -> exists g1', prep_rules g' = COk g1' /\ same_map g1 g1'.
Proof.
  intros g g' S IH g1 H. pose proof S as S0. inversion S0 as [? ? N N' C S1 S2]; subst. unfold prep_rules in *. apply ctraverse_rules in H.
  assert (OK : forall l, (forall kv, In kv l -> In kv g') -> exists l1, Forall2 (fun kv kv1 : string * term => fst kv = fst kv1 /\ prep (snd kv) = COk (snd kv1)) l l1).
  { induction l as [|[r t'] l IHl]; intros IN; [exists []; auto|]. destruct IHl as (l1 & F); [intros; apply IN; simpl; auto|].
    assert (I : In (r, t') g') by (apply IN; simpl; auto). apply In_lookup in I; auto.
    destruct (same_map_back _ _ _ _ S I) as (t & L & R). pose proof (Forall2_lookup _ _ _ H r) as X. rewrite L in X. destruct X as (u & _ & P).
    destruct (IH _ _ _ L I _ P) as (u' & P' & _). exists ((r, u') :: l1). constructor; auto. }
  destruct (OK g') as (g1' & F'); auto. exists g1'. split; [apply ctraverse_rules; auto|].
  assert (KK : forall x y : string * term, fst x = fst y /\ prep (snd x) = COk (snd y) -> fst x = fst y) by (intros; tauto).
  assert (BACK : forall r u, lookup r g1 = Some u -> exists t, lookup r g = Some t /\ prep t = COk u).
  { intros r u L. pose proof (Forall2_lookup _ _ _ H r) as X. destruct (lookup r g) as [t|]; [|congruence]. destruct X as (u1 & L1 & P). rewrite L in L1. inversion L1; subst. eauto. }
  constructor.
  - rewrite (Forall2_keys _ _ _ KK H). auto.
  - rewrite (Forall2_keys _ _ _ KK F'). auto.
  - intros r ls i L I. destruct (BACK _ _ L) as (t & LG & P). destruct (prep_stack _ _ P) as [E E2]. simpl in E. rewrite <- (E2 (eq_sym E)) in LG.
    pose proof (Forall2_lookup _ _ _ H (level r i)) as Y. rewrite (C _ _ _ LG I) in Y. auto.
  - intros r L. pose proof (Forall2_lookup _ _ _ H r) as X. pose proof (Forall2_lookup _ _ _ F' r) as Y.
    destruct (lookup r g) as [t|] eqn:LG; [destruct X as (u & X & _); congruence|]. rewrite (S1 _ LG) in Y. auto.
  - intros r u L. destruct (BACK _ _ L) as (t & LG & P). destruct (S2 _ _ LG) as (t' & LG' & _).
    destruct (IH _ _ _ LG LG' _ P) as (u' & P' & R). pose proof (Forall2_lookup _ _ _ F' r) as Y. rewrite LG' in Y.
    destruct Y as (u2 & L2 & P2). rewrite P' in P2. inversion P2; subst. eauto.
Qed.

Lemma prep_same : forall t t', reordered t t' -> forall u, prep t = COk u -> exists u', prep t' = COk u' /\ reordered u u'.
Proof.
  fix IH 3. intros t t' R u H.
  assert (L : forall ts ts', Forall2 reordered ts ts' ->
    Forall2 (fun t t' => forall u, prep t = COk u -> exists u', prep t' = COk u' /\ reordered u u') ts ts' ->
    forall us, ctraverse prep ts = COk us -> exists us', ctraverse prep ts' = COk us' /\ Forall2 reordered us us').
  { clear. intros ts ts' _ F. induction F as [|a b ts ts' A F IHF]; intros us H; simpl in H.
    - inversion H. exists []. split; auto.
    - apply cbind_ok in H as (x & X & H). apply cbind_ok in H as (xs & XS & H). inversion H; subst.
      destruct (A _ X) as (x' & X' & R). destruct (IHF _ XS) as (xs' & XS' & RS). exists (x' :: xs').
      simpl. rewrite X', XS'. split; auto. }
  destruct R; simpl in H; try (inversion H; subst; eexists; split; [reflexivity|constructor; auto]; fail).
  - apply cbind_ok in H as (x & X & H). inversion H; subst.
    assert (F : Forall2 (fun t t' => forall u, prep t = COk u -> exists u', prep t' = COk u' /\ reordered u u') ts us).
    { clear -IH H0. induction H0; constructor; auto. apply (IH _ _ H). }
    destruct (L _ _ H0 F _ X) as (us' & A & B). exists (TSeq us'). simpl. rewrite A. split; auto. constructor; auto.
  - apply cbind_ok in H as (x & X & H). inversion H; subst.
    assert (F : Forall2 (fun t t' => forall u, prep t = COk u -> exists u', prep t' = COk u' /\ reordered u u') ts us).
    { clear -IH H0. induction H0; constructor; auto. apply (IH _ _ H). }
    destruct (L _ _ H0 F _ X) as (us' & A & B). exists (TOneof us'). simpl. rewrite A. split; auto. constructor; auto.
  - apply cbind_ok in H as (x & X & H). apply cbind_ok in H as (y & Y & H). inversion H; subst.
    destruct (IH _ _ R1 _ X) as (x' & X' & RX). destruct (IH _ _ R2 _ Y) as (y' & Y' & RY).
    eexists. simpl. rewrite X', Y'. split; [reflexivity|constructor; auto].
  - apply cbind_ok in H as (x & X & H). inversion H; subst. destruct (IH _ _ R _ X) as (x' & X' & RX).
    eexists. simpl. rewrite X'. split; [reflexivity|constructor; auto].
  - apply cbind_ok in H as (x & X & H). inversion H; subst. destruct (IH _ _ R _ X) as (x' & X' & RX).
    eexists. simpl. rewrite X'. split; [reflexivity|constructor; auto].
  - apply cbind_ok in H as (x & X & H). inversion H; subst. destruct (IH _ _ R _ X) as (x' & X' & RX).
    eexists. simpl. rewrite X'. split; [reflexivity|constructor; auto].
  - apply cbind_ok in H as (x & X & H). inversion H; subst. destruct (IH _ _ R _ X) as (x' & X' & RX).
    eexists. simpl. rewrite X'. split; [reflexivity|constructor; auto].
  - apply cbind_ok in H as (x & X & H). apply cbind_ok in H as (g1 & G1 & H). apply cbind_ok in H as (g2 & G2 & H). inversion H; subst.
    destruct (IH _ _ R _ X) as (x' & X' & RX).
    assert (PR : forall r t t', lookup r g = Some t -> lookup r g' = Some t' -> forall u, prep t = COk u -> exists u', prep t' = COk u' /\ reordered u u').
    { destruct H0 as [ga gb ? ? ? ? S2]. intros r a b La Lb. destruct (S2 _ _ La) as (b' & Lb' & RR).
      rewrite Lb in Lb'. inversion Lb'; subst b'. exact (IH _ _ RR). }
    destruct (prep_rules_same _ _ H0 PR _ G1) as (g1' & G1' & S1). unfold prep_rules in G1'.
    destruct (resolve_stacks_same _ _ _ S1 G2) as (g2' & G2' & S2).
    exists (TScoped x' g2'). simpl. rewrite X'. cbn [cbind]. rewrite G1'. cbn [cbind]. rewrite G2'. split; [reflexivity|constructor; auto].
Qed.

(** * Wrappers *)

Definition wrap_same (w w' : option term) : Prop :=
  match w, w' with None, None => True | Some t, Some t' => reordered t t' | _, _ => False end.

Lemma wrap_with_same : forall w w' pre, reordered w w' -> wrap_with w pre = wrap_with w' pre.
Proof. intros w w' pre R. destruct R; auto. Qed.
Lemma exempt_same : forall re w w', reordered w w' -> exempt re w = exempt re w'.
Proof. intros re w w' R. destruct R; auto. Qed.
Lemma apply_wrap_same : forall w w' re pre, wrap_same w w' -> apply_wrap w re pre = apply_wrap w' re pre.
Proof.
  intros [w|] [w'|] re pre R; simpl in R; try contradiction; auto.
  destruct R; auto. simpl. assert (F : Forall2 reordered (rev ts) (rev us)) by (clear -H; induction H; simpl; [constructor|apply Forall2_app; auto]).
  destruct F as [|a b l l' A F]; auto.
  rewrite (wrap_with_same a b) by auto.
  replace (existsb (exempt re) (rev l')) with (existsb (exempt re) (rev l)); auto.
  assert (G : forall l, existsb (exempt re) (rev l) = existsb (exempt re) l).
  { clear. induction l as [|x l IH]; simpl; auto. rewrite existsb_app, IH. simpl. rewrite orb_false_r. apply orb_comm. }
  rewrite !G. clear -F. induction F as [|x y l l' X F IH]; simpl; auto. rewrite IH, (exempt_same _ _ _ X). auto.
Qed.
Lemma wrap_inner_same : forall g g' w w', same_map g g' -> wrap_same w w' ->
  wrap_same (match lookup WrapRE g with Some x => Some x | None => w end) (match lookup WrapRE g' with Some x => Some x | None => w' end).
Proof.
  intros g g' w w' S W. inversion S as [? ? N N' C S1 S2]; subst. destruct (lookup WrapRE g) as [t|] eqn:L.
  - destruct (S2 _ _ L) as (t' & -> & R). auto.
  - rewrite (S1 _ L). auto.
Qed.
Lemma ident_same : forall t t', reordered t t' -> ident_from_term t = ident_from_term t'.
Proof. fix IH 3. intros t t' R. destruct R; simpl; auto. destruct (String.eqb n ""); auto. Qed.

(** * Compiling *)

Definition fn_same (f f' : string -> cres parser) : Prop :=
  forall rule p, f rule = COk p -> exists p', f' rule = COk p' /\ psame p p'.

Lemma chase_same : forall E w w' g g', same_map g g' ->
  (forall r t t', lookup r g = Some t -> lookup r g' = Some t' -> reordered t t' -> fn_same (term_parser E t w) (term_parser E t' w')) ->
  forall n t t' f f' h, reordered t t' -> fn_same f f' -> chase n (rule_fns E w g) t f = COk h ->
  exists h', chase n (rule_fns E w' g') t' f' = COk h' /\ fn_same h h'.
Proof.
  intros E w w' g g' S IH. inversion S as [? ? N N' C S1 S2]; subst.
  induction n as [|n IHn]; intros t t' f f' h R FS H; destruct R; simpl in *; try discriminate; try (inversion H; subst; eauto; fail).
  rewrite lookup_rule_fns in *. destruct (lookup r g) as [t|] eqn:L; simpl in H; [|discriminate].
  destruct (S2 _ _ L) as (t' & L' & R). rewrite L'. simpl. eapply IHn; [exact R| |exact H]. eapply IH; eauto.
Qed.

Lemma compile_rules_same : forall E w w' g g', same_map g g' ->
  (forall r t t', lookup r g = Some t -> lookup r g' = Some t' -> reordered t t' -> fn_same (term_parser E t w) (term_parser E t' w')) ->
  forall rs, compile_rules (rule_fns E w g) = COk rs -> exists rs', compile_rules (rule_fns E w' g') = COk rs' /\ rules_same rs rs'.
Proof.
  intros E w w' g g' S IH rs H. pose proof S as S0. inversion S0 as [? ? N N' C S1 S2]; subst.
  assert (LEN : length (rule_fns E w g) = length (rule_fns E w' g')).
  { unfold rule_fns. rewrite !map_length. apply same_keys_len; auto. apply same_map_none; auto. }
  (* each rule on its own *)
  assert (ONE : forall r t p, lookup r g = Some t -> (exists h, chase (Datatypes.S (length (rule_fns E w g))) (rule_fns E w g) t (term_parser E t w) = COk h /\ h r = COk p) ->
    exists t' p', lookup r g' = Some t' /\ (exists h', chase (Datatypes.S (length (rule_fns E w' g'))) (rule_fns E w' g') t' (term_parser E t' w') = COk h' /\ h' r = COk p') /\ psame p p').
  { intros r t p L (h & X & P). destruct (S2 _ _ L) as (t' & L' & R).
    destruct (chase_same E w w' g g' S IH _ _ t' _ (term_parser E t' w') _ R (IH _ _ _ L L' R) X) as (h' & X' & FS).
    destruct (FS _ _ P) as (p' & P' & PS). rewrite LEN in X'. exists t', p'. eauto. }
  assert (SPEC : forall E w g rs, NoDup (keys g) -> compile_rules (rule_fns E w g) = COk rs ->
    forall r t, lookup r g = Some t -> exists p, lookup r rs = Some p /\ exists h, chase (Datatypes.S (length (rule_fns E w g))) (rule_fns E w g) t (term_parser E t w) = COk h /\ h r = COk p).
  { clear. intros E w g rs N H r t L. unfold compile_rules in H. apply ctraverse_ok in H.
    assert (G : forall m all l rs, Forall2 (fun (x : string * (term * (string -> cres parser))) y =>
      (let '(r, (t, f)) := x in cbind (chase m all t f) (fun f' => cbind (f' r) (fun p => COk (r, p)))) = COk y) (rule_fns E w l) rs ->
      lookup r l = Some t -> exists p, lookup r rs = Some p /\ exists h, chase m all t (term_parser E t w) = COk h /\ h r = COk p).
    { clear. intros m all. unfold rule_fns. induction l as [|[k u] g IH]; intros rs H L; [discriminate|]. simpl in H. inversion H as [|? y ? ys Y YS]; subst.
      apply cbind_ok in Y as (h & X & Y). apply cbind_ok in Y as (p & P & Y). inversion Y; subst. simpl in *.
      destruct (String.eqb_spec r k) as [->|NE]; [inversion L; subst; eauto|]. apply IH; auto. }
    eapply G; eauto. }
  assert (OK : exists rs', compile_rules (rule_fns E w' g') = COk rs').
  { unfold compile_rules. 
    assert (G : forall m all l, m = Datatypes.S (length (rule_fns E w' g')) -> all = rule_fns E w' g' -> (forall kv, In kv l -> In kv g') -> exists rs', ctraverse (fun kv : string * (term * (string -> cres parser)) => let '(r, (t, f)) := kv in
       cbind (chase m all t f) (fun f' => cbind (f' r) (fun p => COk (r, p)))) (map (fun kv => (fst kv, (snd kv, term_parser E (snd kv) w'))) l) = COk rs').
    { intros m all l Hm Ha. induction l as [|[r t'] l IHl]; intros IN; [exists []; reflexivity|]. destruct IHl as (rs' & F); [intros; apply IN; simpl; auto|].
      assert (I : In (r, t') g') by (apply IN; simpl; auto). apply In_lookup in I; auto.
      destruct (same_map_back _ _ _ _ S I) as (t & L & R). destruct (SPEC _ _ _ _ N H _ _ L) as (p & _ & X).
      destruct (ONE _ _ _ L X) as (t2 & p' & L2 & (h' & Y & Z) & _). rewrite I in L2. inversion L2; subst t2.
      cbn [map ctraverse fst snd]. rewrite <- Hm, <- Ha in Y. rewrite Y. cbn [cbind]. rewrite Z. cbn [cbind]. rewrite F. simpl. eauto. }
    apply G; auto. }
  destruct OK as (rs' & H'). exists rs'. split; auto.
  constructor.
  - intros r L. pose proof (compile_rules_lookup _ _ _ _ r H) as X. rewrite L in X. pose proof (compile_rules_lookup _ _ _ _ r H') as Y.
    destruct (lookup r rs'); auto. destruct Y as (t & _ & LG & _). rewrite (S1 _ X) in LG. discriminate.
  - intros r q L. pose proof (compile_rules_lookup _ _ _ _ r H) as X. rewrite L in X. destruct X as (t & _ & LG & _).
    destruct (SPEC _ _ _ _ N H _ _ LG) as (p & Lp & X). rewrite L in Lp. inversion Lp; subst p.
    destruct (ONE _ _ _ LG X) as (t' & p' & L' & X' & PS).
    destruct (SPEC _ _ _ _ N' H' _ _ L') as (p2 & Lp2 & (h2 & Y & Z)). destruct X' as (h' & Y' & Z').
    rewrite Y' in Y. inversion Y; subst h2. rewrite Z' in Z. inversion Z; subst. eauto.
Qed.

Lemma scoped_result_same : forall rs rs' p p', rules_same rs rs' -> psame p p' -> psame (scoped_result rs p) (scoped_result rs' p').
Proof.
  intros rs rs' p p' RS P. inversion RS as [? ? N S]; subst. destruct P; simpl; try (constructor; auto; constructor; auto; fail).
  destruct (lookup r rs) as [q|] eqn:L.
  - destruct (S _ _ L) as (q' & -> & Q). destruct Q; repeat (constructor; auto).
  - rewrite (N _ L). constructor.
Qed.

Lemma term_parser_same : forall E t t', reordered t t' -> forall w w', wrap_same w w' -> fn_same (term_parser E t w) (term_parser E t' w').
Proof.
  intros E. fix IH 3. intros t t' R w w' W rule p H.
  assert (L : forall ts ts', Forall2 (fun t t' => fn_same (term_parser E t w) (term_parser E t' w')) ts ts' ->
    forall ps, ctraverse (fun x => cbind (term_parser E x w "") (fun p => COk (reg p))) ts = COk ps ->
    exists ps', ctraverse (fun x => cbind (term_parser E x w' "") (fun p => COk (reg p))) ts' = COk ps' /\ Forall2 psame ps ps').
  { clear. intros ts ts' F. induction F as [|a b ts ts' A F IHF]; intros us H; simpl in H.
    - inversion H. exists []. split; auto.
    - apply cbind_ok in H as (x & X & H). apply cbind_ok in X as (q & Q & X). inversion X; subst. apply cbind_ok in H as (xs & XS & H). inversion H; subst.
      destruct (A _ _ Q) as (q' & Q' & R). destruct (IHF _ XS) as (xs' & XS' & RS). exists (reg q' :: xs').
      simpl. rewrite Q', XS'. split; auto. constructor; auto. apply psame_reg; auto. }
  assert (I : forall ts ts', Forall2 reordered ts ts' -> map ident_from_term ts = map ident_from_term ts').
  { clear. induction 1 as [|a b ts ts' A F IHF]; simpl; auto. rewrite IHF, (ident_same _ _ A). auto. }
  destruct R; cbn [term_parser] in *; try discriminate; try (inversion H; subst; eexists; split; [reflexivity|constructor; auto]; fail).
  - rewrite <- (apply_wrap_same w w') by auto. exists p. split; auto. apply psame_refl.
  - rewrite <- (apply_wrap_same w w') by auto. exists p. split; auto. apply psame_refl.
  - apply cbind_ok in H as (x & X & H). inversion H; subst.
    assert (F : Forall2 (fun t t' => fn_same (term_parser E t w) (term_parser E t' w')) ts us).
    { clear -IH H0 W. induction H0; constructor; auto. }
    destruct (L _ _ F _ X) as (ps' & -> & B). simpl. rewrite (I _ _ H0). eexists. split; [reflexivity|constructor; auto].
  - apply cbind_ok in H as (x & X & H). inversion H; subst.
    assert (F : Forall2 (fun t t' => fn_same (term_parser E t w) (term_parser E t' w')) ts us).
    { clear -IH H0 W. induction H0; constructor; auto. }
    destruct (L _ _ F _ X) as (ps' & -> & B). simpl. eexists. split; [reflexivity|constructor; auto].
  - apply cbind_ok in H as (x & X & H). apply cbind_ok in H as (y & Y & H). inversion H; subst.
    destruct (IH _ _ R1 _ _ W _ _ X) as (x' & X' & RX). destruct (IH _ _ R2 _ _ W _ _ Y) as (y' & Y' & RY).
    rewrite X'. simpl. rewrite Y'. simpl. rewrite (ident_same _ _ R1), (ident_same _ _ R2).
    eexists. split; [reflexivity|]. apply psame_reg in RX, RY.
    assert (OP : psame (PQuant "" 0 1 (reg y)) (PQuant "" 0 1 (reg y'))) by (constructor; auto).
    constructor. constructor. apply Forall2_app; [destruct cs; auto|]. constructor; [|destruct ce; auto].
    repeat (constructor; auto).
  - apply cbind_ok in H as (x & X & H). inversion H; subst. destruct (IH _ _ R _ _ W _ _ X) as (x' & X' & RX).
    rewrite X'. eexists. split; [reflexivity|constructor; auto]. apply psame_reg; auto.
  - apply cbind_ok in H as (x & X & H). inversion H; subst. destruct (IH _ _ R _ _ W _ _ X) as (x' & X' & RX).
    rewrite X'. eexists. split; [reflexivity|constructor; auto]. apply psame_reg; auto.
  - exact (IH _ _ R _ _ W _ _ H).
  - apply cbind_ok in H as (x & X & H). inversion H; subst. destruct (IH _ _ R _ _ W _ _ X) as (x' & X' & RX).
    rewrite X'. eexists. split; [reflexivity|constructor; auto].
  - pose proof (wrap_inner_same _ _ _ _ H0 W) as W2.
    set (v := match lookup WrapRE g with Some x => Some x | None => w end) in *.
    set (v' := match lookup WrapRE g' with Some x => Some x | None => w' end) in *.
    apply cbind_ok in H as (rs & RS & H). apply cbind_ok in H as (x & X & H). inversion H; subst.
    destruct (IH _ _ R _ _ W2 _ _ X) as (x' & X' & RX).
    assert (PR : forall r t t', lookup r g = Some t -> lookup r g' = Some t' -> reordered t t' -> fn_same (term_parser E t v) (term_parser E t' v')).
    { destruct H0 as [ga gb ? ? ? ? S2]. intros r a b La Lb _. destruct (S2 _ _ La) as (b' & Lb' & RR).
      rewrite Lb in Lb'. inversion Lb'; subst b'. exact (IH _ _ RR _ _ W2). }
    destruct (compile_rules_same _ _ _ _ _ H0 PR _ RS) as (rs' & RS' & SS). unfold rule_fns in RS'. rewrite RS'. cbn [cbind]. rewrite X'.
    eexists. split; [reflexivity|]. apply scoped_result_same; auto.
Qed.

Theorem compile_same : forall E g g' ps, same_map g g' -> compile E g = COk ps ->
  exists ps', compile E g' = COk ps' /\ forall c f r s, parse_rule c f ps r s = parse_rule c f ps' r s.
Proof.
  intros E g g' ps S H. unfold compile in *. apply cbind_ok in H as (g1 & G1 & H). apply cbind_ok in H as (rs & RS & H). inversion H; subst.
  destruct (resolve_stacks_same _ _ _ S G1) as (g1' & G1' & S1). rewrite G1'. cbn [cbind]. unfold compile_resolved in *.
  apply cbind_ok in RS as (g2 & G2 & RS). 
  destruct (prep_rules_same _ _ S1) with (g1 := g2) as (g2' & G2' & S2); auto.
  { intros r t t' L L'. inversion S1 as [? ? ? ? ? ? X]; subst. destruct (X _ _ L) as (t2 & L2 & R). rewrite L' in L2. inversion L2; subst. apply prep_same; auto. }
  unfold prep_rules in G2'. rewrite G2'. cbn [cbind].
  assert (W : wrap_same (lookup WrapRE g2) (lookup WrapRE g2')).
  { inversion S2 as [? ? ? ? ? X Y]; subst. destruct (lookup WrapRE g2) as [t|] eqn:L; [destruct (Y _ _ L) as (t' & -> & R); auto|rewrite (X _ L); exact Logic.I]. }
  destruct (compile_rules_same E _ _ _ _ S2 (fun r t t' _ _ R => term_parser_same E t t' R _ _ W) _ RS) as (rs' & RS' & SS).
  unfold rule_fns in RS'. rewrite RS'. cbn [cbind]. eexists. split; [reflexivity|]. intros. apply parse_rule_same; auto.
Qed.

(** * Stacks are shorthand *)

Lemma same_map_left : forall g g', same_map g g' -> same_map g g.
Proof.
  assert (R : forall t t', reordered t t' -> reordered t t).
  { fix IH 3. intros t t' R. destruct R; try (constructor; auto; fail).
    - constructor. induction H; constructor; auto. exact (IH _ _ H).
    - constructor. induction H; constructor; auto. exact (IH _ _ H).
    - constructor. induction H; constructor; auto. exact (IH _ _ H).
    - constructor; [exact (IH _ _ R1)|exact (IH _ _ R2)].
    - constructor. exact (IH _ _ R).
    - constructor. exact (IH _ _ R).
    - constructor. exact (IH _ _ R).
    - constructor. exact (IH _ _ R).
    - constructor; [exact (IH _ _ R)|]. destruct H as [g g' N N' C S1 S2]. constructor; auto.
      intros r u L. exists u. split; auto. destruct (S2 _ _ L) as (u' & _ & RR). exact (IH _ _ RR). }
  intros g g' [h h' N N' C S1 S2]. constructor; auto. intros r t L. exists t. split; auto. destruct (S2 _ _ L) as (t' & _ & RR). eauto.
Qed.

(** Grammars with the same rules. *)
Lemma same_map_lookup : forall g h, same_map g g -> NoDup (keys h) -> (forall x, lookup x g = lookup x h) -> same_map g h.
Proof.
  intros g h S N H. inversion S as [? ? N1 N2 C S1 S2]; subst. constructor; auto.
  - intros r L. rewrite <- H. auto.
  - intros r t L. destruct (S2 _ _ L) as (t' & L' & R). rewrite H in L'. eauto.
Qed.

Lemma resolve_stacks_fixed : forall g, (forall r ls, In (r, TStack ls) g -> ls = []) -> resolve_stacks g = COk g.
Proof.
  intros g H. unfold resolve_stacks. destruct (existsb _ g); auto.
  assert (G : forall todo h, (forall r ls, In (r, TStack ls) todo -> ls = []) -> resolve_stacks_loop todo h = COk h).
  { induction todo as [|[r t] todo IH]; intros h X; simpl; auto.
    destruct t as [| | | | | | |ls| | | | | |]; try (apply IH; intros; eapply X; right; eauto).
    rewrite (X r ls (or_introl eq_refl)). simpl. apply IH. intros; eapply X; right; eauto. }
  auto.
Qed.

Lemma unstacked_resolves : forall g g2, NoDup (keys g) -> clear_names g -> unstacked g g2 ->
  exists g1, resolve_stacks g = COk g1 /\ NoDup (keys g1) /\ forall x, lookup x g1 = lookup x g2.
Proof.
  intros g g2 N C U.
  assert (OK : exists g1, resolve_stacks g = COk g1).
  { unfold resolve_stacks. destruct (existsb _ g); [|eauto]. apply loop_ok. intros r ls i t IN NT.
    apply In_lookup in IN; auto. destruct (us_layer _ _ U _ _ _ _ IN NT) as (u & _ & P). eauto. }
  destruct OK as (g1 & H). exists g1. split; auto. destruct (resolve_stacks_spec _ _ N C H) as (U1 & N1 & _). split; auto.
  apply (unstacked_fun g); auto.
Qed.

(** The part of [compile] after stack resolution. *)
Lemma compile_after : forall E g g1, resolve_stacks g = COk g1 -> resolve_stacks g1 = COk g1 -> compile E g = compile E g1.
Proof. intros E g g1 H H1. unfold compile. rewrite H, H1. reflexivity. Qed.

Theorem stacks_are_sugar : forall E g g2, same_map g g -> unstacked g g2 -> NoDup (keys g2) ->
  (forall ps, compile E g = COk ps ->
     exists ps2, compile E g2 = COk ps2 /\ forall c f r s, parse_rule c f ps r s = parse_rule c f ps2 r s) /\
  (forall ps2, compile E g2 = COk ps2 ->
     exists ps, compile E g = COk ps /\ forall c f r s, parse_rule c f ps r s = parse_rule c f ps2 r s).
Proof.
  intros E g g2 S U N2. pose proof S as S0. inversion S0 as [? ? N _ C _ _]; subst.
  destruct (unstacked_resolves _ _ N C U) as (g1 & H1 & N1 & L).
  destruct (resolve_stacks_same _ _ _ S H1) as (g1' & H1' & S1). rewrite H1 in H1'. inversion H1'; subst g1'; clear H1'.
  assert (F1 : resolve_stacks g1 = COk g1).
  { apply resolve_stacks_fixed. intros r ls IN. apply In_lookup in IN; auto.
    destruct (resolve_stacks_spec _ _ N C H1) as (U1 & _). eapply unstacked_no_stack; [| |exact IN]; eauto. }
  assert (S12 : same_map g1 g2) by (apply same_map_lookup; auto).
  assert (S22 : same_map g2 g2).
  { inversion S12 as [? ? _ _ C1 X1 X2]; subst. constructor; auto.
    - eapply clear_names_same; eauto.
    - intros r t LT. exists t. split; auto. rewrite <- L in LT. inversion S1 as [? ? _ _ _ _ Y]; subst. destruct (Y _ _ LT) as (t' & LT' & R). congruence. }
  assert (S21 : same_map g2 g1) by (apply same_map_lookup; auto).
  rewrite (compile_after E g g1 H1 F1). split.
  - intros ps H. exact (compile_same E g1 g2 ps S12 H).
  - intros ps2 H. destruct (compile_same E g2 g1 ps2 S21 H) as (ps & H2 & R). exists ps. split; auto.
Qed.

(** @ does not survive. *)
Lemma put_at_gone : forall x t u, x <> "@"%string -> put x t u -> ~ mentions "@" u.
Proof.
  intros x t u NE. revert u.
  assert (L : forall ts us, Forall (fun t => forall u, put x t u -> ~ mentions "@" u) ts -> Forall2 (put x) ts us -> ~ Exists (mentions "@") us).
  { intros ts us F F2. revert F. induction F2 as [|a b ts us A F2 IH]; intros F M; inversion M; subst; inversion F; subst; [eapply H2; eauto|eapply IH; eauto]. }
  induction t using term_ind'; intros u P M; inversion P; subst; try (inversion M; subst; congruence).
  - inversion M; subst. eapply L; eauto.
  - inversion M; subst. eapply L; eauto.
  - inversion M; subst. destruct H0; [eapply IHt1; eauto|eapply IHt2; eauto].
  - inversion M; subst. eapply IHt; eauto.
  - inversion M; subst. eapply IHt; eauto.
  - inversion M; subst. eapply IHt; eauto.
  - eapply IHt; eauto.
Qed.
