(** Proofs about comparing AST nodes and about their ranges. *)
From Verif Require Import Base Scanner ScannerSpec ScannerProofs Syntax Resolve PegSpec TopProofs Ast AstSpec AstProofs.

(** * Comparison *)

Lemma data_eqb_eq : forall a b, data_eqb a b = true <-> a = b.
Proof.
  intros [r|c|s|z] [r'|c'|s'|z']; simpl; split; intro H; try discriminate; try (inversion H; subst).
  - apply String.eqb_eq in H. congruence.
  - apply String.eqb_refl.
  - apply Nat.eqb_eq in H. congruence.
  - apply Nat.eqb_refl.
  - apply String.eqb_eq in H. congruence.
  - apply String.eqb_refl.
  - apply Z.eqb_eq in H. congruence.
  - apply Z.eqb_refl.
Qed.

Lemma all_pairs_Forall2 : forall A (f : A -> A -> bool) l m, all_pairs f l m = true <-> Forall2 (fun x y => f x y = true) l m.
Proof.
  intros A f. induction l as [|x l IH]; intros [|y m]; simpl; split; intro H; try discriminate; auto; try (inversion H; fail).
  - apply andb_true_iff in H as [H1 H2]. constructor; auto. now apply IH.
  - inversion H; subst. apply andb_true_iff. split; auto. now apply IH.
Qed.

Lemma filled_branch : forall b, filled (ABranch b) -> NoDup (keys b) /\ Forall (fun kv => filled_kids (snd kv)) b.
Proof. intros b H. inversion H; auto. Qed.
Lemma filled_in : forall b k c, filled (ABranch b) -> In (k, c) b -> filled_kids c.
Proof. intros b k c H I. apply filled_branch in H as [_ H]. rewrite Forall_forall in H. apply (H _ I). Qed.

Lemma key_in : forall (b : branch) k, In k (keys b) -> exists c, In (k, c) b.
Proof. intros b k H. apply in_map_iff in H as ([k' c] & E & I). simpl in E. subst. eauto. Qed.
Lemma in_key : forall (b : branch) k c, In (k, c) b -> In k (keys b).
Proof. intros b k c H. apply in_map_iff. exists (k, c). auto. Qed.

Lemma content_equals_spec : forall a b, filled a -> filled b -> (content_equals a b = true <-> same_content a b).
Proof.
  intros a. apply (anode_ind'
    (fun a => forall b, filled a -> filled b -> (content_equals a b = true <-> same_content a b))
    (fun c => forall m k, filled_kids c -> filled (ABranch m) ->
       (match c with
        | One n => match get_one m k with Some n' => content_equals n n' | None => false end
        | Many ns => all_pairs content_equals ns (get_many m k)
        end = true <-> exists c', In (k, c') m /\ same_kids c c'))); clear a.
  - intros s [m|s'|d] Fa Fb; simpl; split; intro H; try discriminate; try (inversion H; fail).
    + inversion Fa as [? t E| |]; inversion Fb as [? t' E'| |]; subst. rewrite E, E' in H. simpl in H.
      apply beqb_eq in H. subst. econstructor; eauto.
    + inversion H as [? ? t E1 E2| |]; subst. rewrite E1, E2. simpl. apply beqb_refl.
  - intros d [m|s'|d'] Fa Fb; simpl; split; intro H; try discriminate; try (inversion H; fail).
    + apply data_eqb_eq in H. subst. constructor.
    + inversion H; subst. now apply data_eqb_eq.
  - intros l IH [m|s'|d] Fa Fb; simpl; split; intro H; try discriminate; try (inversion H; fail).
    + apply andb_true_iff in H as [L H]. apply Nat.eqb_eq in L. rewrite forallb_forall in H.
      assert (A : forall k c, In (k, c) l -> exists c', In (k, c') m /\ same_kids c c').
      { intros k c I. specialize (H _ I). rewrite Forall_forall in IH. specialize (IH _ I). simpl in *.
        apply (proj1 (IH m k (filled_in _ _ _ Fa I) Fb)). exact H. }
      constructor; [exact A|]. intros k c' I. apply key_in.
      assert (IN : incl (keys m) (keys l)).
      { apply NoDup_length_incl.
        - now apply filled_branch in Fa.
        - unfold keys. rewrite !map_length. lia.
        - intros k0 K. apply key_in in K as (c & K). destruct (A _ _ K) as (c2 & K2 & _). eapply in_key; eauto. }
      apply IN. eapply in_key; eauto.
    + inversion H as [| |? ? A B]; subst. apply andb_true_iff. split.
      * apply Nat.eqb_eq. apply filled_branch in Fa as [Na _], Fb as [Nb _].
        assert (L1 : length (keys l) <= length (keys m)).
        { apply NoDup_incl_length; auto. intros k K. apply key_in in K as (c & K). destruct (A _ _ K) as (c2 & K2 & _). eapply in_key; eauto. }
        assert (L2 : length (keys m) <= length (keys l)).
        { apply NoDup_incl_length; auto. intros k K. apply key_in in K as (c & K). destruct (B _ _ K) as (c2 & K2). eapply in_key; eauto. }
        unfold keys in *. rewrite !map_length in *. lia.
      * rewrite forallb_forall. intros [k c] I. rewrite Forall_forall in IH. specialize (IH _ I). simpl in *.
        apply (proj2 (IH m k (filled_in _ _ _ Fa I) Fb)). auto.
  - intros n IH m k Fk Fm. inversion Fk; subst. pose proof (filled_branch _ Fm) as [Nd _]. unfold get_one. split.
    + intro H. destruct (lookup k m) as [[n'|ns]|] eqn:E; try discriminate. apply lookup_In in E.
      exists (One n'). split; auto. constructor. apply IH; auto. pose proof (filled_in _ _ _ Fm E) as Q. inversion Q; auto.
    + intros (c' & I & S). inversion S; subst. rewrite (In_lookup _ _ _ Nd I). apply IH; auto.
      pose proof (filled_in _ _ _ Fm I) as Q. inversion Q; auto.
  - intros ns IH m k Fk Fm. inversion Fk as [|n0 ns0 Fns]; subst. pose proof (filled_branch _ Fm) as [Nd _]. unfold get_many.
    set (ns := n0 :: ns0) in *.
    assert (X : forall ns', Forall filled ns' -> (all_pairs content_equals ns ns' = true <-> Forall2 same_content ns ns')).
    { clear - IH Fns. induction IH as [|n ns Hn _ IHns]; intros [|n' ns'] F; simpl; split; intro H; try discriminate; auto; try (inversion H; fail).
      - inversion Fns; inversion F; subst. apply andb_true_iff in H as [U V]. constructor; [apply Hn; auto|apply IHns; auto].
      - inversion Fns; inversion F; inversion H; subst. apply andb_true_iff. split; [apply Hn; auto|apply IHns; auto]. }
    split.
    + intro H. destruct (lookup k m) as [[n'|ns']|] eqn:E; try discriminate. apply lookup_In in E.
      exists (Many ns'). split; auto. constructor. apply X; auto. pose proof (filled_in _ _ _ Fm E) as Q. inversion Q; auto.
    + intros (c' & I & S). inversion S; subst. rewrite (In_lookup _ _ _ Nd I). apply X; auto.
      pose proof (filled_in _ _ _ Fm I) as Q. inversion Q; auto.
Qed.

Lemma same_content_refl : forall a, filled a -> same_content a a.
Proof.
  intros a. apply (anode_ind' (fun a => filled a -> same_content a a) (fun c => filled_kids c -> same_kids c c)); clear a.
  - intros s F. inversion F; subst. econstructor; eauto.
  - constructor.
  - intros b IH F. constructor; [|eauto]. intros k c I. exists c. split; auto.
    rewrite Forall_forall in IH. apply (IH _ I). eapply filled_in; eauto.
  - intros n IH F. inversion F; subst. constructor. auto.
  - intros ns IH F. inversion F as [|n0 ns0 Fn]; subst. constructor. clear F. set (ns := n0 :: ns0) in *.
    induction IH; auto. inversion Fn; subst. constructor; auto.
Qed.

Lemma same_content_sym : forall a b, filled a -> filled b -> same_content a b -> same_content b a.
Proof.
  intros a. apply (anode_ind' (fun a => forall b, filled a -> filled b -> same_content a b -> same_content b a)
                              (fun c => forall c', filled_kids c -> filled_kids c' -> same_kids c c' -> same_kids c' c)); clear a.
  - intros s b Fa Fb H. inversion H; subst. econstructor; eauto.
  - intros d b Fa Fb H. inversion H; subst. constructor.
  - intros l IH b Fa Fb H. inversion H as [| |? m A B]; subst. constructor.
    + intros k c' I. destruct (B _ _ I) as (c & Ic). exists c. split; auto.
      destruct (A _ _ Ic) as (c2 & I2 & S). pose proof (filled_branch _ Fb) as [Nd _].
      assert (c2 = c') by (pose proof (In_lookup _ _ _ Nd I); pose proof (In_lookup _ _ _ Nd I2); congruence). subst.
      rewrite Forall_forall in IH. apply (IH _ Ic); [exact (filled_in _ _ _ Fa Ic)|exact (filled_in _ _ _ Fb I)|exact S].
    + intros k c I. destruct (A _ _ I) as (c2 & I2 & S). eauto.
  - intros n IH c' F F' H. inversion H; inversion F; inversion F'; subst; try congruence.
    constructor. apply IH; auto. congruence.
  - intros ns IH c' F F' H. inversion H as [|? ns' H2]; subst. constructor.
    assert (X : Forall filled ns /\ Forall filled ns') by (inversion F; inversion F'; auto). destruct X as [X Y]. clear F F' H.
    induction H2; constructor; inversion IH; inversion X; inversion Y; subst; auto.
Qed.

Lemma same_content_trans : forall a b c, filled a -> filled b -> filled c ->
  same_content a b -> same_content b c -> same_content a c.
Proof.
  intros a. apply (anode_ind'
    (fun a => forall b c, filled a -> filled b -> filled c -> same_content a b -> same_content b c -> same_content a c)
    (fun x => forall y z, filled_kids x -> filled_kids y -> filled_kids z -> same_kids x y -> same_kids y z -> same_kids x z)); clear a.
  - intros s b c Fa Fb Fc H K. inversion H; subst. inversion K; subst. econstructor; [eauto|congruence].
  - intros d b c Fa Fb Fc H K. inversion H; subst. inversion K; subst. constructor.
  - intros l IH b c Fa Fb Fc H K. inversion H as [| |? m A B]; subst. inversion K as [| |? n C D]; subst. constructor.
    + intros k x I. destruct (A _ _ I) as (y & Iy & S). destruct (C _ _ Iy) as (z & Iz & T). exists z. split; auto.
      rewrite Forall_forall in IH. apply (IH _ I) with (y := y); [exact (filled_in _ _ _ Fa I)|exact (filled_in _ _ _ Fb Iy)|exact (filled_in _ _ _ Fc Iz)|exact S|exact T].
    + intros k z I. destruct (D _ _ I) as (y & Iy). exact (B _ _ Iy).
  - intros n IH y z Fx Fy Fz H K. inversion H; subst. inversion K; subst. constructor.
    inversion Fx; inversion Fy; inversion Fz; subst. apply (IH n'); auto.
  - intros ns IH y z Fx Fy Fz H K. inversion H as [|? ns' H2]; subst. inversion K as [|? ns3 K2]; subst. constructor.
    assert (X : Forall filled ns /\ Forall filled ns' /\ Forall filled ns3) by (inversion Fx; inversion Fy; inversion Fz; auto).
    destruct X as (X & Y & Z). clear Fx Fy Fz H K. revert ns3 K2 Z.
    induction H2 as [|x y l l' Hxy _ IHl]; intros ns3 K2 Z; inversion K2; subst; constructor; inversion IH; inversion X; inversion Y; inversion Z; subst; eauto.
Qed.

Theorem content_equals_refl : forall a, filled a -> content_equals a a = true.
Proof. intros a F. apply content_equals_spec; auto. now apply same_content_refl. Qed.
Theorem content_equals_sym : forall a b, filled a -> filled b -> content_equals a b = content_equals b a.
Proof.
  intros a b Fa Fb. destruct (content_equals b a) eqn:E.
  - apply content_equals_spec; auto. apply same_content_sym; auto. now apply content_equals_spec.
  - destruct (content_equals a b) eqn:E2; auto. apply content_equals_spec in E2; auto. apply same_content_sym in E2; auto.
    apply content_equals_spec in E2; auto. congruence.
Qed.
Theorem content_equals_trans : forall a b c, filled a -> filled b -> filled c ->
  content_equals a b = true -> content_equals b c = true -> content_equals a c = true.
Proof.
  intros a b c Fa Fb Fc H K. apply content_equals_spec in H; auto. apply content_equals_spec in K; auto.
  apply content_equals_spec; auto. apply (same_content_trans a b c); auto.
Qed.

(** * Ranges *)

Lemma at_name_prefix : forall k, at_name k = prefix "@" k.
Proof.
  intros [|c k]; [reflexivity|]. unfold at_name. simpl. destruct (ascii_dec "@" c) as [<-|N].
  - destruct k; reflexivity.
  - destruct c as [[] [] [] [] [] [] [] []]; try reflexivity. exfalso. apply N. reflexivity.
Qed.

Lemma oseq_Forall2 : forall A (l : list (option A)) xs, Forall2 (fun o x => o = Some x) l xs -> oseq l = Some xs.
Proof. induction 1 as [|o x l xs E F IH]; simpl; auto. rewrite E, IH. auto. Qed.

Lemma covers_trans' : forall a b c, covers a b -> covers b c -> covers a c.
Proof. intros a b c (A1 & A2 & A3) (B1 & B2 & B3). split; [congruence|lia]. Qed.

(** Merging least covers gives the least cover. *)
Lemma merge_least : forall (o : source) (ls : list (list scanner)) ss,
  Forall2 (fun l s => l <> [] /\ least_cover l s /\ src s = Some o) ls ss -> ss <> [] ->
  exists s, merge_scanners ss = Some s /\ least_cover (concat ls) s /\ src s = Some o.
Proof.
  intros o ls ss F N.
  assert (S : exists m, merge_scanners ss = Some m).
  { apply merge_success. split; auto. exists (Some o). intros v I.
    destruct (Forall2_In_r _ _ _ _ _ _ F I) as (l & _ & _ & _ & E). exact E. }
  destruct S as (m & E). exists m. split; auto. destruct (merge_covers _ _ E) as [C1 C2].
  split; [split|].
  - intros x I. apply in_concat in I as (l & Il & Ix).
    assert (X : exists s, In s ss /\ covers s x).
    { clear - F Il Ix. induction F as [|l' s ls ss (A & (B & C) & D) F IH]; [contradiction|].
      destruct Il as [->|Il]; [exists s; split; [now left|auto]|]. destruct IH as (s' & I & K); auto. exists s'. split; [now right|auto]. }
    destruct X as (s & Is & Cs). eapply covers_trans'; [apply C1; exact Is|exact Cs].
  - intros c H. apply C2. intros v Iv.
    destruct (Forall2_In_r _ _ _ _ _ _ F Iv) as (l & Il & _ & (_ & L2) & _). apply L2. intros x Ix. apply H.
    apply in_concat. eauto.
  - destruct ss as [|s ss]; [congruence|]. inversion F as [|l s' ls' ss' (A & B & D) F']; subst.
    destruct (C1 s (or_introl eq_refl)) as (X & _). congruence.
Qed.

Definition scans (o : source) (l : list scanner) (s : scanner) : Prop :=
  match l with [] => s = zero_scanner | _ => least_cover l s /\ src s = Some o end.

Lemma merge_zeros : forall ss, ss <> [] -> Forall (eq zero_scanner) ss -> merge_scanners ss = Some zero_scanner.
Proof.
  intros ss N F. destruct ss as [|a ss]; [congruence|]. inversion F; subst. destruct ss as [|b ss]; [reflexivity|].
  assert (X : forall ss, Forall (eq zero_scanner) ss -> merge_loop None 0 0 ss = Some (0, 0)%Z).
  { clear. induction 1 as [|x ss <- F IH]; simpl; auto. }
  simpl. inversion H2; subst. simpl. rewrite X; auto.
Qed.

Lemma scans_least : forall o l s, l <> [] -> scans o l s -> least_cover l s /\ src s = Some o.
Proof. intros o [|x l] s N H; [congruence|exact H]. Qed.
Lemma least_scans : forall o l s, l <> [] -> least_cover l s -> src s = Some o -> scans o l s.
Proof. intros o [|x l] s N H E; [congruence|]. split; auto. Qed.

Lemma map_Forall_exists : forall A B (R : A -> B -> Prop) l, Forall (fun x => exists y, R x y) l -> exists ys, Forall2 R l ys.
Proof. induction 1 as [|x l (y & H) F (ys & IH)]; [exists []; auto|exists (y :: ys); auto]. Qed.

Lemma even_branch : forall o b k c, even o (ABranch b) -> In (k, c) b -> prefix "@" k = false -> even_kids o c.
Proof. intros o b k c H I N. inversion H; subst. eauto. Qed.

Definition kids_shown (c : children anode) : list scanner :=
  match c with One n => shown n | Many ns => flat_map shown ns end.
Definition kids_scanner (c : children anode) : option scanner :=
  match c with
  | One n => node_scanner n
  | Many ns => match oseq (map node_scanner ns) with Some l => merge_or_zero l | None => None end
  end.

Lemma shown_branch : forall b, shown (ABranch b) =
  flat_map (fun kv : string * children anode => if prefix "@" (fst kv) then [] else kids_shown (snd kv)) b.
Proof. reflexivity. Qed.

Lemma whole_scans : forall o b,
  (forall k c, In (k, c) b -> prefix "@" k = false -> exists s, kids_scanner c = Some s /\ scans o (kids_shown c) s) ->
  exists s, match oseq (flat_map (fun kv : string * children anode =>
                  if at_name (fst kv) then [] else [kids_scanner (snd kv)]) b) with
            | Some l => merge_or_zero (filter not_nil l) | None => None end = Some s /\ scans o (shown (ABranch b)) s.
Proof.
  intros o b H. rewrite shown_branch.
  set (vis := filter (fun kv : string * children anode => negb (prefix "@" (fst kv))) b).
  assert (E1 : flat_map (fun kv : string * children anode => if at_name (fst kv) then [] else [kids_scanner (snd kv)]) b
               = map (fun kv => kids_scanner (snd kv)) vis).
  { unfold vis. clear. induction b as [|[k c] b IH]; simpl; auto. rewrite at_name_prefix. destruct (prefix "@" k); simpl; rewrite IH; auto. }
  assert (E2 : flat_map (fun kv : string * children anode => if prefix "@" (fst kv) then [] else kids_shown (snd kv)) b
               = concat (map (fun kv => kids_shown (snd kv)) vis)).
  { unfold vis. clear. induction b as [|[k c] b IH]; simpl; auto. destruct (prefix "@" k); simpl; rewrite IH; auto. }
  rewrite E1, E2.
  assert (F : exists ss, Forall2 (fun (kv : string * children anode) s => kids_scanner (snd kv) = Some s /\ scans o (kids_shown (snd kv)) s) vis ss).
  { apply map_Forall_exists. apply Forall_forall. intros [k c] I. unfold vis in I. apply filter_In in I as [I N]. simpl in *.
    apply negb_true_iff in N. apply (H k c); auto. }
  destruct F as (ss & F).
  assert (Q : oseq (map (fun kv : string * children anode => kids_scanner (snd kv)) vis) = Some ss).
  { apply oseq_Forall2. clear - F. induction F as [|kv s l ss [A B] F IH]; simpl; constructor; auto. }
  rewrite Q. clear Q E1 E2 H.
  assert (G : exists ls, concat (map (fun kv : string * children anode => kids_shown (snd kv)) vis) = concat ls /\
                Forall2 (fun l s => l <> [] /\ least_cover l s /\ src s = Some o) ls (filter not_nil ss)).
  { clearbody vis.
    induction F as [|kv s l ss [A B] F (ls & IH1 & IH2)]; [exists []; split; [reflexivity|constructor]|]. simpl.
    destruct (kids_shown (snd kv)) as [|x xs] eqn:E.
    - simpl in B. subst s. simpl. exists ls. auto.
    - destruct B as [B1 B2]. unfold not_nil, is_nil. rewrite B2. simpl. exists ((x :: xs) :: ls). simpl. rewrite IH1. split; auto.
      constructor; auto. split; [discriminate|split; auto]. }
  destruct G as (ls & -> & G).
  destruct (filter not_nil ss) as [|s0 ss0] eqn:Ess.
  - inversion G; subst. simpl. eauto.
  - destruct (merge_least o ls _ G) as (s & M & L & Es); [discriminate|]. exists s. split; [exact M|].
    apply least_scans; auto. inversion G as [|l1 s1 ? ? (N1 & _) _]; subst. destruct l1; [congruence|]. discriminate.
Qed.

Lemma node_scanner_branch : forall b, node_scanner (ABranch b) =
  let whole := match oseq (flat_map (fun kv : string * children anode =>
                  if at_name (fst kv) then [] else [kids_scanner (snd kv)]) b) with
            | Some l => merge_or_zero (filter not_nil l) | None => None end in
  match b with
  | [(k, One n)] => if at_name k then whole else node_scanner n
  | [(k, Many [n])] => if at_name k then whole else node_scanner n
  | _ => whole
  end.
Proof. reflexivity. Qed.

Theorem node_scanner_scans : forall o n, even o n -> exists s, node_scanner n = Some s /\ scans o (shown n) s.
Proof.
  intros o n. apply (anode_ind' (fun n => even o n -> exists s, node_scanner n = Some s /\ scans o (shown n) s)
    (fun c => even_kids o c -> exists s, kids_scanner c = Some s /\ scans o (kids_shown c) s)); clear n.
  - intros s H. inversion H; subst. exists s. split; [reflexivity|]. split; auto. split.
    + intros x [->|[]]. repeat split; lia.
    + intros c Hc. apply Hc. now left.
  - intros d H. inversion H.
  - intros b IH H.
    assert (W := whole_scans o b). rewrite Forall_forall in IH.
    assert (W' : exists s, match oseq (flat_map (fun kv : string * children anode =>
                  if at_name (fst kv) then [] else [kids_scanner (snd kv)]) b) with
            | Some l => merge_or_zero (filter not_nil l) | None => None end = Some s /\ scans o (shown (ABranch b)) s).
    { apply W. intros k c I N. apply (IH _ I). eapply even_branch; eauto. }
    clear W. rewrite node_scanner_branch. cbv zeta.
    assert (Single : forall k c n, b = [(k, c)] -> kids_shown c = shown n -> kids_scanner c = node_scanner n -> at_name k = false ->
              exists s, node_scanner n = Some s /\ scans o (shown (ABranch b)) s).
    { intros k c n -> E1 E2 A. destruct (IH (k, c) (or_introl eq_refl)) as (s & K1 & K2).
      - simpl. eapply even_branch; eauto; [now left|]. now rewrite <- at_name_prefix.
      - cbn [snd] in K1, K2. exists s. split; [congruence|]. rewrite shown_branch. cbn [flat_map fst snd]. rewrite <- at_name_prefix, A, app_nil_r. exact K2. }
    destruct b as [|[k [n|[|n [|n2 ns]]]] [|kv2 b]]; try exact W'.
    + destruct (at_name k) eqn:A; [exact W'|]. eapply Single; eauto.
    + destruct (at_name k) eqn:A; [exact W'|]. eapply Single; eauto; simpl; [now rewrite app_nil_r|].
      destruct (node_scanner n); reflexivity.
  - intros n IH H. inversion H; subst. simpl. auto.
  - intros ns IH H. inversion H as [|? E D]; subst. simpl.
    assert (F : exists ss, Forall2 (fun n s => node_scanner n = Some s /\ scans o (shown n) s) ns ss).
    { apply map_Forall_exists. clear - IH E. induction IH; constructor; inversion E; subst; auto. }
    destruct F as (ss & F).
    assert (Q : oseq (map node_scanner ns) = Some ss).
    { apply oseq_Forall2. clear - F. induction F as [|n s l ss [A B] F IH]; simpl; constructor; auto. }
    rewrite Q. destruct D as [D|D].
    + (* no leaves at all *)
      assert (Z : Forall (eq zero_scanner) ss /\ flat_map shown ns = []).
      { clear - F D. induction F as [|n s l ss [A B] F IH]; [auto|]. inversion D; subst. rewrite H1 in B. destruct IH as [I1 I2]; auto.
        simpl. rewrite H1, I2. split; auto. }
      destruct Z as [Z1 Z2]. rewrite Z2. exists zero_scanner. split; [|reflexivity].
      destruct ss as [|s ss]; [reflexivity|]. apply merge_zeros; auto. discriminate.
    + destruct ss as [|s0 ss0]; [inversion F; subst; simpl; eauto|].
      destruct (merge_least o (map shown ns) (s0 :: ss0)) as (s & M & L & Es); [|discriminate|].
      { clear - F D. induction F as [|n s l ss [A B] F IH]; [constructor|]. inversion D; subst. simpl. constructor; auto.
        apply scans_least in B as [B1 B2]; auto. }
      exists s. split; [exact M|]. rewrite flat_map_concat_map. apply least_scans; auto.
      inversion F as [|n ? ? ? _ _]; subst. inversion D; subst. simpl. destruct (shown n); [congruence|discriminate].
Qed.

(** Reshuffling keeps the leaves. *)
Lemma flat_map_perm : forall A B (f : A -> list B) l m, Permutation l m -> Permutation (flat_map f l) (flat_map f m).
Proof.
  induction 1; simpl; auto.
  - now apply Permutation_app_head.
  - rewrite !app_assoc. apply Permutation_app_tail. apply Permutation_app_comm.
  - eapply Permutation_trans; eauto.
Qed.

Lemma reshuffled_shown : forall n n', reshuffled n n' -> Permutation (shown n) (shown n').
Proof.
  intros n. apply (anode_ind' (fun n => forall n', reshuffled n n' -> Permutation (shown n) (shown n'))
    (fun c => forall c', reshuffled_kids c c' -> Permutation (kids_shown c) (kids_shown c'))); clear n.
  - intros s n' H. inversion H; subst. auto.
  - intros d n' H. inversion H; subst. auto.
  - intros b IH n' H. inversion H as [| |? b' c F P]; subst. rewrite !shown_branch.
    eapply Permutation_trans; [|apply flat_map_perm; exact P]. clear P H.
    induction F as [|[k x] [k' y] l l' [E R] F IHF]; simpl; auto. simpl in *. subst k'. inversion IH; subst.
    apply Permutation_app; auto. destruct (prefix "@" k); auto.
  - intros n IH c' H. inversion H; subst. simpl. auto.
  - intros ns IH c' H. inversion H as [|? ns' F]; subst. simpl. clear H.
    induction F; simpl; auto. inversion IH; subst. apply Permutation_app; auto.
Qed.

Lemma reshuffled_even : forall o n n', reshuffled n n' -> even o n -> even o n'.
Proof.
  intros o n. apply (anode_ind' (fun n => forall n', reshuffled n n' -> even o n -> even o n')
    (fun c => forall c', reshuffled_kids c c' -> even_kids o c -> even_kids o c')); clear n.
  - intros s n' H E. inversion H; subst. auto.
  - intros d n' H E. inversion E.
  - intros b IH n' H E. inversion H as [| |? b' c F P]; subst. constructor. intros k x I N.
    apply (Permutation_in _ (Permutation_sym P)) in I.
    destruct (Forall2_In_r _ _ _ _ _ _ F I) as ([k0 x0] & I0 & Ek & R). simpl in *. subst k0.
    rewrite Forall_forall in IH. apply (IH _ I0 x R). eapply even_branch; eauto.
  - intros n IH c' H E. inversion H; subst. inversion E; subst. constructor. auto.
  - intros ns IH c' H E. inversion H as [|? ns' F]; subst. inversion E as [|? E1 E2]; subst. clear H E.
    constructor.
    + induction F; constructor; inversion IH; inversion E1; subst; auto.
      apply IHF; auto. destruct E2 as [E2|E2]; inversion E2; auto.
    + destruct E2 as [E2|E2]; [left|right]; clear IH E1; induction F as [|a b l l' R F IHF]; constructor; inversion E2; subst; auto.
      * apply reshuffled_shown in R. rewrite H1 in R. apply Permutation_nil in R. exact R.
      * apply reshuffled_shown in R. intro Z. rewrite Z in R. apply Permutation_sym, Permutation_nil in R. contradiction.
Qed.

Theorem node_scanner_order : forall o n n', even o n -> reshuffled n n' -> node_scanner n' = node_scanner n.
Proof.
  intros o n n' E R. destruct (node_scanner_scans o n E) as (s & H1 & S1).
  destruct (node_scanner_scans o n' (reshuffled_even _ _ _ R E)) as (s' & H2 & S2).
  rewrite H1, H2. f_equal. apply reshuffled_shown in R.
  destruct (shown n) as [|x l] eqn:X.
  - apply Permutation_nil in R. rewrite R in S2. simpl in *. congruence.
  - destruct (shown n') as [|x' l'] eqn:X'; [apply Permutation_sym, Permutation_nil in R; discriminate|].
    destruct S1 as [(A1 & A2) _], S2 as [(B1 & B2) _].
    apply covers_antisym.
    + apply A2. intros y I. apply B1. eapply Permutation_in; eauto.
    + apply B2. intros y I. apply A1. eapply Permutation_in; [apply Permutation_sym; exact R|auto].
Qed.

Theorem node_scanner_range : forall o n, even o n ->
  exists s, node_scanner n = Some s /\
    (shown n = [] -> s = zero_scanner) /\
    (shown n <> [] -> least_cover (shown n) s /\ src s = Some o).
Proof.
  intros o n E. destruct (node_scanner_scans o n E) as (s & H & S). exists s. split; auto. split.
  - intros Q. rewrite Q in S. exact S.
  - intros N. now apply scans_least.
Qed.

Lemma reshuffled_refl : forall n, reshuffled n n.
Proof.
  intros n. apply (anode_ind' (fun n => reshuffled n n) (fun c => reshuffled_kids c c)); clear n.
  - constructor.
  - constructor.
  - intros b IH. apply rs_branch with (b' := b); auto. induction IH; auto.
  - constructor; auto.
  - intros ns F. constructor. induction F; auto.
Qed.
