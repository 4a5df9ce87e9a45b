(** Settled ASTs have one view, whose leaves are in the order of the text. *)
From Verif Require Import Base Scanner Syntax Resolve Ast AstSpec AstProofs Gotree GotreeSpec GotreeProofs Treeview TreeviewSpec TreeviewProofs.
From Coq Require Import Sorting.Sorted.
Local Open Scope Z_scope.

(** The rank of an item that starts at an offset. *)
Definition rank_at (z : Z) : Z := if z =? 0 then -1 else z.
Lemma rank_at_lt : forall a b, 0 <= a -> a < b -> rank_at a < rank_at b.
Proof. intros a b A B. unfold rank_at. destruct (Z.eqb_spec a 0), (Z.eqb_spec b 0); lia. Qed.
Lemma rank_at_max : forall a, 0 <= a <= max_int -> -1 <= rank_at a <= max_int.
Proof. intros a A. unfold rank_at. destruct (Z.eqb_spec a 0); lia. Qed.

(** * Sorting *)

Definition low (a b : Z * gtree) : Prop := fst a <= fst b.
Lemma sorts_strongly : forall sorter p l, sorts sorter -> StronglySorted low (sorter p l).
Proof.
  intros sorter p l S. destruct (S p l) as [_ H]. generalize (sorter p l) H. clear. intros m.
  induction m as [|a m IH]; intros H; constructor.
  - apply IH. intros i j x y L I J. apply (H (Datatypes.S i) (Datatypes.S j) x y); auto. lia.
  - apply Forall_forall. intros b I. apply In_nth_error in I as [j J]. apply (H 0%nat (Datatypes.S j) a b); auto. lia.
Qed.
Lemma sorted_unique : forall a b, StronglySorted low a -> StronglySorted (fun x y => fst x < fst y) b -> Permutation a b -> a = b.
Proof.
  induction a as [|x a IH]; intros b SA SB P; [apply Permutation_nil in P; auto|].
  destruct b as [|y b]; [symmetry in P; apply Permutation_nil in P; discriminate|].
  inversion SA as [|? ? SA' FA]; inversion SB as [|? ? SB' FB]; subst.
  assert (x = y).
  { assert (IX : In x (y :: b)) by (rewrite <- P; now left). assert (IY : In y (x :: a)) by (rewrite P; now left).
    destruct IX as [->|IX]; auto. destruct IY as [->|IY]; auto. rewrite Forall_forall in FA, FB. specialize (FA _ IY). specialize (FB _ IX). unfold low in FA. lia. }
  subst y. f_equal. apply IH; auto. eapply Permutation_cons_inv; eauto.
Qed.

(** * Interleaved children *)

Definition full {A} (l : list A) : bool := match l with [] => false | _ => true end.
Lemma concat_full : forall A (l : list (list A)), concat (filter full l) = concat l.
Proof. induction l as [|x l IH]; auto. simpl. destruct x; simpl; [|f_equal; f_equal]; auto. Qed.
Lemma interleave_pairs : forall A B (R : A -> list B -> Prop) ls l, interleave ls l -> forall tss,
  Forall2 (fun ts bl => Forall2 R ts (filter full bl)) tss ls ->
  exists T, Permutation T (concat tss) /\ Forall2 R T (filter full l).
Proof.
  intros A B R ls l H. induction H as [ls F|ls1 x l ls2 rest H IH]; intros tss K.
  - exists []. split; [|constructor]. assert (concat tss = []) as ->; auto.
    induction K as [|ts bl tss ls K1 K2 IHK]; auto. inversion F; subst. simpl in K1. inversion K1. simpl. auto.
  - apply Forall2_app_inv_r in K as (t1 & t2 & K1 & K2 & ->). inversion K2 as [|ts ? t3 ? K3 K4]; subst.
    destruct x as [|y x].
    + apply IH. apply Forall2_app; auto.
    + simpl in K3. inversion K3 as [|t ? ts' ? R1 R2]; subst. destruct (IH (t1 ++ ts' :: t3)) as (T & P & F).
      * apply Forall2_app; auto.
      * exists (t :: T). split; [|simpl; constructor; auto]. rewrite P, !concat_app. simpl. apply Permutation_middle.
Qed.

(** * Offsets *)

Lemma climbing_app : forall a b lo, climbing lo (a ++ b) -> climbing lo a /\ (exists lo', lo <= lo' /\ climbing lo' b /\ Forall (fun s => offset s < lo') a).
Proof.
  induction a as [|s a IH]; intros b lo H.
  - split; [exact Logic.I|]. exists lo. split; [lia|]. split; auto.
  - simpl in H. destruct H as [H1 H2]. destruct (IH _ _ H2) as (C & lo' & L & C' & F). split; [split; auto|]. exists lo'. split; [lia|]. split; auto. constructor; auto. lia.
Qed.
Lemma climbing_low : forall l lo lo', lo <= lo' -> climbing lo' l -> climbing lo l.
Proof. destruct l; simpl; auto. intros lo lo' L [H1 H2]. split; auto. lia. Qed.
Lemma climbing_in : forall l lo s, climbing lo l -> In s l -> lo <= offset s.
Proof.
  induction l as [|x l IH]; intros lo s H I; [destruct I|]. destruct H as [H1 H2]. destruct I as [->|I]; auto. specialize (IH _ _ H2 I). lia.
Qed.
Lemma climbing_block : forall bl lo blk, climbing lo (concat bl) -> In blk bl -> climbing lo blk.
Proof.
  induction bl as [|x bl IH]; intros lo blk H I; [destruct I|]. simpl in H. apply climbing_app in H as (C & lo' & L & C' & _).
  destruct I as [->|I]; auto. eapply climbing_low; eauto.
Qed.

(** * Names *)

Lemma leading_name : forall k, ~ number_name k -> leading_number (bs k) = None.
Proof.
  intros [|c k] N; [reflexivity|]. unfold bs. cbn [list_ascii_of_string leading_number].
  destruct (is_digit c && negb (Ascii.eqb c "0"))%bool eqn:E; auto. exfalso. apply N. exists c, k. split; auto. clear - E.
  destruct c as [[] [] [] [] [] [] [] []]; vm_compute in E; try discriminate E; vm_compute; tauto.
Qed.
Lemma collapse_first : forall prefix i parts, exists rest, collapse_loop prefix i parts = prefix :: rest.
Proof.
  intros prefix i parts. revert i. induction parts as [|s parts IH]; intros i; cbn [collapse_loop]; [eauto|].
  destruct (beqb s (bs "...") || beqb s prefix)%bool; [apply IH|]. eexists. reflexivity.
Qed.
Lemma leading_collapse : forall prefix x, leading_number prefix = None -> leading_number (collapse_text prefix x) = None.
Proof.
  intros prefix x H. unfold collapse_text. destruct (collapse_first prefix 0 (split_sep collapsedNodeSep 0 x)) as [rest ->].
  destruct rest as [|r rest]; auto. change (join_sep collapsedNodeSep (prefix :: r :: rest)) with (prefix ++ collapsedNodeSep ++ join_sep collapsedNodeSep (r :: rest)).
  destruct prefix as [|c prefix]; [reflexivity|]. simpl in *. destruct (is_digit c && negb (Ascii.eqb c "0"))%bool; [discriminate|auto].
Qed.

(** * Ranks *)

Fixpoint least (ts : list gtree) (r : Z) : option Z :=
  match ts with
  | [] => Some r
  | t :: ts' => match rank t with Some i => least ts' (if r >? i then i else r) | None => None end
  end.
Lemma rank_items : forall x ts, leading_number x = None -> ts <> [] -> rank (GTree x ts) = least ts max_int.
Proof.
  intros x ts H N. cbn [rank gtext]. rewrite H. destruct ts as [|t ts]; [congruence|].
  reflexivity.
Qed.
Lemma least_low : forall ts r, Forall (fun t => exists i, rank t = Some i /\ r <= i) ts -> least ts r = Some r.
Proof.
  induction 1 as [|t ts (i & R & L) F IH]; auto. simpl. rewrite R. destruct (Z.gtb_spec r i); [lia|]. auto.
Qed.

Section Settled.
  Variables (quote : bytes -> bytes) (extra : adata -> bytes).

  (** The tree of a node whose leaves are the block. *)
  Definition settled_tree (t : gtree) (blk : list scanner) : Prop :=
    Forall2 (label quote) blk (tips t) /\ (gitems t <> [] -> leading_number (gtext t) = None) /\
    match blk with [] => False | s :: _ => rank t = Some (rank_at (offset s)) end.

  (** What is known about the leaves. *)
  Definition fine (l : list scanner) : Prop := climbing 0 l /\ Forall (fun s => offset s <= max_int /\ exists x, sstring s = Some x) l.
  Lemma fine_block : forall bl blk, fine (concat bl) -> In blk bl -> fine blk.
  Proof.
    intros bl blk [C F] I. split; [eapply climbing_block; eauto|]. apply Forall_forall. intros s IS. rewrite Forall_forall in F. apply F.
    apply in_concat. eauto.
  Qed.

  Definition one_view (n : anode) (k : string) (t : gtree) : Prop := forall ord sorter path, any_order ord -> sorts sorter ->
    from_ast quote extra true ord sorter path k n = Some t.
  Definition node_settled (n : anode) : Prop := settled n -> forall l, reads n l -> fine l -> forall k,
    exists t, one_view n k t /\ Forall2 (label quote) l (tips t) /\ (~ number_name k -> settled_tree t l).
  Definition kids_settled (c : children anode) : Prop := forall k, ~ number_name k -> (forall n, In n (nodes c) -> settled n) ->
    forall bl, reads_kids c bl -> Forall fine bl ->
    exists ts, (forall ord sorter path i, any_order ord -> sorts sorter -> kid_trees quote extra true ord sorter path i k c = Some ts) /\
      Forall2 settled_tree ts bl.

  Lemma settled_full : forall ts bl, Forall2 settled_tree ts bl -> filter full bl = bl.
  Proof. induction 1 as [|t b ts bl (_ & _ & H) F IH]; auto. destruct b; [destruct H|]. simpl. now rewrite IH. Qed.

  Lemma groups_settled : forall b, Forall (fun kv => kids_settled (snd kv)) b ->
    (forall k c n, In (k, c) b -> In n (nodes c) -> at_name k -> leafless n) ->
    (forall k c n, In (k, c) b -> In n (nodes c) -> ~ at_name k -> ~ number_name k /\ settled n) ->
    forall ls, Forall2 (fun kv => reads_kids (snd kv)) b ls -> Forall (Forall fine) ls ->
    exists gs tss, (forall ord sorter path i, any_order ord -> sorts sorter -> groups quote extra true ord sorter path i b = Some gs) /\
      concat gs = concat tss /\ Forall2 (fun ts bl => Forall2 settled_tree ts (filter full bl)) tss ls /\
      (forall k c, In (k, c) b -> ~ at_name k -> nodes c <> [] -> concat gs <> []).
  Proof.
    induction 1 as [|[k c] b H F IH]; intros A N ls L FI.
    - inversion L; subst. exists [], []. repeat split; auto.
    - inversion L as [|? bl ? ls' R L']; subst. inversion FI as [|? ? FI1 FI2]; subst. simpl in R.
      destruct (IH (fun k' c' n I => A k' c' n (or_intror I)) (fun k' c' n I => N k' c' n (or_intror I)) ls' L' FI2) as (gs & tss & G & C & K & E).
      destruct (String.prefix "@" k) eqn:P.
      + assert (AT : at_name k) by (now apply prefix_at). exists gs, ([] :: tss). split; [|split; [|split]]; auto.
        * intros ord sorter path i O S. cbn [groups]. rewrite P. simpl. auto.
        * constructor; auto. assert (filter full bl = []) as ->; [|constructor].
          assert (X : Forall (eq []) bl).
          { assert (AL : forall n, In n (nodes c) -> leafless n) by (intros n I; eapply A; eauto; now left).
            destruct R as [n l R|ns ll R]; simpl in AL.
            - constructor; auto. symmetry. apply (AL n); auto.
            - clear - R AL. induction R; constructor; [symmetry; apply (AL x); simpl; auto|apply IHR; intros; apply AL; simpl; auto]. }
          clear - X. induction X; subst; auto.
        * intros k' c' [Q|I] NA NN; [inversion Q; subst; contradiction|eauto].
      + assert (NA : ~ at_name k) by (intro X; apply prefix_at in X; congruence).
        destruct (nodes c) as [|n0 ns0] eqn:NC.
        * (* Many [] *)
          destruct c as [n|ns]; simpl in NC; [discriminate|]. subst ns. inversion R as [|? ? R']; subst. inversion R'; subst.
          exists ([] :: gs), ([] :: tss). split; [|split; [|split]]; auto.
          -- intros ord sorter path i O S. cbn [groups]. rewrite P. simpl. rewrite (G ord sorter path _ O S). auto.
          -- constructor; auto. constructor.
          -- intros k' c' [Q|I] NA' NN; [inversion Q; subst; contradiction|]. simpl. eauto.
        * assert (NK : ~ number_name k) by (apply (N k c n0); [now left|rewrite NC; now left|auto]).
          simpl in H. destruct (H k NK) with (bl := bl) as (ts & T1 & T2); auto.
          { intros n I. apply (N k c n); auto. now left. }
          exists (ts :: gs), (ts :: tss). split; [|split; [|split]].
          -- intros ord sorter path i O S. cbn [groups]. rewrite P. simpl. now rewrite (T1 ord sorter path i O S), (G ord sorter path _ O S).
          -- simpl. now rewrite C.
          -- constructor; auto. rewrite (settled_full _ _ T2). auto.
          -- intros k' c' _ _ _ Q. simpl in Q. apply app_eq_nil in Q as [-> _]. inversion T2; subst.
             inversion R as [|ns ll R']; subst. inversion R'; subst. simpl in NC. discriminate.
  Qed.

  (** Items in the order of their blocks are strictly sorted. *)
  Lemma settled_ranks : forall ts bl, Forall2 settled_tree ts bl -> forall lo, 0 <= lo -> climbing lo (concat bl) ->
    Forall (fun s => offset s <= max_int) (concat bl) ->
    exists rs, ranks ts = Some rs /\ map snd rs = ts /\ StronglySorted (fun x y => fst x < fst y) rs /\
      Forall (fun r => rank_at lo <= fst r <= max_int) rs.
  Proof.
    induction 1 as [|t blk ts bl R F IH]; intros lo L0 C M.
    - exists []. repeat split; constructor.
    - destruct R as (_ & _ & R). destruct blk as [|s blk]; [destruct R|]. simpl concat in C, M.
      change ((s :: blk) ++ concat bl) with ([s] ++ (blk ++ concat bl)) in C. 
      assert (OS : lo <= offset s /\ climbing (offset s + 1) (blk ++ concat bl)) by exact C. destruct OS as [OS C1].
      apply climbing_app in C1 as (_ & lo' & LL & C2 & _). inversion M as [|? ? MS M']; subst. apply Forall_app in M' as [_ M2].
      destruct (IH lo') as (rs & E & S & SS & B); auto; [lia|].
      exists ((rank_at (offset s), t) :: rs). simpl. rewrite R, E, S. split; auto. split; auto.
      assert (RL : rank_at (offset s) < rank_at lo') by (apply rank_at_lt; lia).
      assert (RM := rank_at_max (offset s)). assert (RO : rank_at lo <= rank_at (offset s)).
      { destruct (Z.eq_dec lo (offset s)) as [->|NE]; [lia|]. assert (X := rank_at_lt lo (offset s)). lia. }
      split.
      + constructor; auto. eapply Forall_impl; [|exact B]. intros a HA. simpl in *. lia.
      + constructor; [simpl; lia|]. eapply Forall_impl; [|exact B]. intros a HA. simpl in *. lia.
  Qed.

  Lemma settled_tips : forall ts bl, Forall2 settled_tree ts bl -> Forall2 (label quote) (concat bl) (flat_map tips ts).
  Proof. induction 1 as [|t b ts bl (L & _) F IH]; simpl; [constructor|]. apply Forall2_app; auto. Qed.

  Lemma fine_labels : forall s, 0 <= offset s -> (exists x, sstring s = Some x) -> exists x, leaf_string quote s = Some x /\ label quote s x.
  Proof.
    intros s O [x E]. assert (X : exists y, leaf_string quote s = Some y) by (unfold leaf_string; rewrite E; eauto).
    destruct X as [y Y]. exists y. split; auto. now apply label_string.
  Qed.
  Lemma label_rank : forall s x, label quote s x -> offset s <= max_int -> rank (gnew x) = Some (rank_at (offset s)).
  Proof.
    intros s x L M.
    assert (X : exists n r, offset s = Z.of_nat n /\ x = bs (dec n) ++ bs "‣" ++ r) by (inversion L; subst; eauto).
    destruct X as (n & r & O & ->). unfold gnew. cbn [rank gtext]. rewrite leading_dec by reflexivity. rewrite O in *.
    destruct (Nat.eqb n 0) eqn:E; [apply Nat.eqb_eq in E; subst; reflexivity|]. apply Nat.eqb_neq in E.
    rewrite atoi_dec by auto. unfold rank_at. destruct (Z.eqb_spec (Z.of_nat n) 0); [lia|auto].
  Qed.

  Lemma perm_one : forall A (l : list A) x, Permutation l [x] -> l = [x].
  Proof. intros A l x P. symmetry in P. now apply Permutation_length_1_inv in P. Qed.

  (** The items of a settled branch are put in the order of the text, or collapsed. *)
  Lemma finish_settled : forall T bl k, Forall2 settled_tree T bl -> fine (concat bl) -> T <> [] ->
    exists t, (forall sorter path items, sorts sorter -> Permutation items T -> finish sorter path (GTree (bs k) items) = Some t) /\
      Forall2 (label quote) (concat bl) (tips t) /\ (~ number_name k -> settled_tree t (concat bl)).
  Proof.
    intros T bl k F [C M] NE.
    assert (M' : Forall (fun s => offset s <= max_int) (concat bl)) by (eapply Forall_impl; [|exact M]; simpl; tauto).
    destruct (settled_ranks _ _ F 0) as (rs & E & ES & SS & B); auto; [lia|].
    assert (HD : match concat bl with [] => False | s :: _ => least T max_int = Some (rank_at (offset s)) end).
    { destruct F as [|t blk T bl R F]; [congruence|]. destruct R as (_ & _ & R). destruct blk as [|s blk]; [destruct R|]. simpl.
      rewrite R. assert (RM : rank_at (offset s) <= max_int). { apply rank_at_max. simpl in C, M'. inversion M'; subst. lia. }
      destruct (Z.gtb_spec max_int (rank_at (offset s))); [|assert (rank_at (offset s) = max_int) by lia].
      - apply least_low. simpl in E. rewrite R in E. destruct (ranks T) as [rs'|] eqn:RT; [|discriminate]. injection E as <-.
        inversion SS as [|? ? _ FA]; subst. apply ranks_fst in RT as [RT1 RT2]. clear - RT2 FA. induction RT2; constructor.
        + inversion FA; subst. exists (fst y). split; auto. simpl in *. lia.
        + apply IHRT2. now inversion FA.
      - rewrite <- H0. apply least_low. simpl in E. rewrite R in E. destruct (ranks T) as [rs'|] eqn:RT; [|discriminate]. injection E as <-.
        inversion SS as [|? ? _ FA]; subst. apply ranks_fst in RT as [RT1 RT2]. clear - RT2 FA. induction RT2; constructor.
        + inversion FA; subst. exists (fst y). split; auto. simpl in *. lia.
        + apply IHRT2. now inversion FA. }
    assert (TIPS : Forall2 (label quote) (concat bl) (tips (GTree (bs k) T))) by (rewrite tips_items by auto; now apply settled_tips).
    assert (PLAIN : ~ number_name k -> settled_tree (GTree (bs k) T) (concat bl)).
    { intros NK. assert (NL := leading_name k NK). split; auto. split; auto.
      destruct (concat bl) as [|s l]; auto. now rewrite rank_items. }
    assert (CASES : (exists x u, T = [GTree x [u]]) \/ (forall items sorter path, Permutation items T -> finish sorter path (GTree (bs k) items) = sort_items (sorter path) (GTree (bs k) items))).
    { destruct T as [|t1 [|t2 T]]; [congruence| |].
      - destruct t1 as [x us]. destruct us as [|u [|u' us]].
        + right. intros items sorter path P. apply perm_one in P. subst. reflexivity.
        + left. eauto.
        + right. intros items sorter path P. apply perm_one in P. subst. reflexivity.
      - right. intros items sorter path P. apply Permutation_length in P. destruct items as [|i1 [|i2 items]]; try discriminate P.
        unfold finish. destruct i1 as [y [|v [|v' vs]]]; reflexivity. }
    destruct CASES as [(x & u & ->)|CASE].
    - exists (GTree (collapse_text (bs k) x) [u]). split.
      + intros sorter path items S P. apply perm_one in P. subst. reflexivity.
      + assert (L' : Forall2 (label quote) (concat bl) (tips (GTree (collapse_text (bs k) x) [u]))).
        { simpl in TIPS |- *. rewrite !app_nil_r in TIPS. rewrite app_nil_r. exact TIPS. }
        split; auto. intros NK. assert (NL := leading_name k NK). destruct (PLAIN NK) as (L & _ & R). split; [exact L'|split].
        * intros _. now apply leading_collapse.
        * destruct (concat bl) as [|s l] eqn:CB; auto. rewrite rank_items; [|now apply leading_collapse|discriminate].
          rewrite rank_items in R; auto. inversion F as [|? blk ? ? FT FN]; subst. destruct FT as (_ & N1 & _).
          assert (RX : rank (GTree x [u]) = least [u] max_int) by (apply rank_items; [apply N1; discriminate|discriminate]).
          cbn [least] in HD, RX |- *. rewrite RX in HD. destruct (rank u) as [j|]; [|discriminate]. rewrite <- HD. f_equal.
          destruct (Z.gtb_spec max_int j); [destruct (Z.gtb_spec max_int j)|destruct (Z.gtb_spec max_int max_int)]; lia.
    - exists (GTree (bs k) T). split; auto. intros sorter path items S P. rewrite CASE by auto. unfold sort_items. cbn [gitems gtext].
      destruct items as [|a [|b items]].
      + apply Permutation_nil in P. subst. congruence.
      + symmetry in P. apply perm_one in P. now rewrite P.
      + assert (RI : exists l, ranks (a :: b :: items) = Some l /\ Permutation l rs).
        { clear - P E. revert rs E. generalize (a :: b :: items) P. clear. intros l P. symmetry in P. induction P; intros rs E.
          - exists []. simpl in *. injection E as <-. auto.
          - simpl in *. destruct (rank x); [|discriminate]. destruct (ranks l) as [r|]; [|discriminate]. injection E as <-.
            destruct (IHP _ eq_refl) as (r' & -> & Q). eauto.
          - simpl in *. destruct (rank x); [|destruct (rank y); discriminate]. destruct (rank y); [|discriminate].
            destruct (ranks l) as [r|]; [|discriminate]. injection E as <-. eexists. split; eauto. constructor.
          - destruct (IHP1 _ E) as (r1 & E1 & Q1). destruct (IHP2 _ E1) as (r2 & E2 & Q2). exists r2. split; auto. now rewrite Q2. }
        destruct RI as (l & -> & Q). do 2 f_equal. rewrite <- ES. f_equal. apply sorted_unique; auto; [now apply sorts_strongly|].
        destruct (S path l) as [PS _]. now rewrite PS.
  Qed.

  Lemma all_settled : forall n, node_settled n.
  Proof.
    intros n. apply (anode_ind' node_settled kids_settled); clear n.
    - intros s _ l R [C M] k. inversion R; subst. inversion M as [|? ? [MX SX] _]; subst. destruct C as [C _].
      destruct (fine_labels s C SX) as (x & E & L). exists (gnew x). split; [|split; [|intros _; split; [|split]]].
      + intros ord sorter path _ _. simpl. now rewrite E.
      + simpl. auto.
      + simpl. auto.
      + simpl. congruence.
      + now apply label_rank.
    - intros d S. inversion S.
    - intros b F S l R FI k. inversion S as [|? (k0 & c0 & I0 & NA0 & NN0) A N]; subst.
      apply reads_branch_inv in R as (ls & l' & -> & L & IL).
      destruct (groups_settled b F A N ls L) as (gs & tss & G & CG & K & NEG).
      { apply Forall_forall. intros bl IB. apply Forall_forall. intros blk IK. eapply fine_block; eauto.
        clear - IL IB IK. revert bl IB IK. induction IL as [ls F|ls1 x l ls2 rest H IH]; intros bl IB IK.
        - rewrite Forall_forall in F. rewrite <- (F _ IB) in IK. destruct IK.
        - apply in_app_or in IB as [IB|[<-|IB]].
          + right. apply (IH bl); auto. apply in_or_app. now left.
          + destruct IK as [->|IK]; [now left|]. right. apply (IH l); auto. apply in_or_app. right. now left.
          + right. apply (IH bl); auto. apply in_or_app. right. now right. }
      destruct (interleave_pairs _ _ _ _ _ IL _ K) as (T & P & FT).
      assert (NT : T <> []). { intros ->. apply Permutation_nil in P. rewrite <- CG in P. eapply NEG; eauto. }
      rewrite <- (concat_full _ l') in FI |- *.
      destruct (finish_settled T (filter full l') k FT FI NT) as (t & FIN & TI & ST).
      exists t. split; auto. intros ord sorter path O SO. rewrite from_ast_branch, (G ord sorter path _ O SO). apply FIN; auto.
      rewrite P, <- CG. apply perm_concat, O.
    - intros n H k NK SE bl R FI. inversion R as [? l RN|]; subst. inversion FI; subst.
      destruct (H (SE n (or_introl eq_refl)) l RN) with (k := k) as (t & V & _ & ST); auto.
      exists [t]. split; [|constructor; auto]. intros ord sorter path i O S. simpl. now rewrite (V ord sorter _ O S).
    - intros ns F k NK SE bl R FI. inversion R as [|? ? RN]; subst. clear R. simpl in SE. cbn [kid_trees].
      enough (X : exists ts, (forall ord sorter path i j, any_order ord -> sorts sorter -> many_trees quote extra true ord sorter path i j k ns = Some ts) /\ Forall2 settled_tree ts bl).
      { destruct X as (ts & X1 & X2). exists ts. split; auto. }
      revert F SE FI. induction RN as [|n l ns bl R1 R2 IH]; intros F SE FI.
      + exists []. split; auto.
      + inversion F as [|? ? H F']; inversion FI as [|? ? FI1 FI2]; subst.
        destruct (H (SE n (or_introl eq_refl)) l R1 FI1 k) as (t & V & _ & ST).
        destruct IH as (ts & T1 & T2); auto. { intros m I. apply SE. now right. }
        exists (t :: ts). split; auto. intros ord sorter path i j O S. cbn [many_trees]. now rewrite (V ord sorter _ O S), (T1 ord sorter path i _ O S).
  Qed.
End Settled.

(** C71: a settled AST has one view, and it shows the leaves in the order of the text. *)
Theorem settled_view : forall quote extra n l k, settled n -> reads n l -> climbing 0 l ->
  Forall (fun s => offset s <= max_int /\ exists x, sstring s = Some x) l ->
  exists t, Forall2 (label quote) l (tips t) /\
    forall ord sorter path, any_order ord -> sorts sorter -> from_ast quote extra true ord sorter path k n = Some t.
Proof.
  intros quote extra n l k S R C M. destruct (all_settled quote extra n S l R (conj C M) k) as (t & V & L & _). exists t. split; auto.
Qed.

(** * After parsing *)
From Verif Require Import ScannerSpec ScannerProofs Engine Compile Parse PegSpec CutSpec FlowSpec ApiSpec ApiProofs AstParse AstFits ChainProofs TreeviewSpec.

Lemma ordered_climbing : forall o lo hi l, ordered o lo hi l -> Forall (fun s => slen s <> 0) l -> climbing (Z.of_nat lo) l /\
  Forall (fun s => offset s <= blen (origin o) /\ exists x, sstring s = Some x) l.
Proof.
  induction 1 as [lo hi L|lo hi x i n ls W L O IH]; intros N; [split; simpl; auto|].
  inversion N as [|? ? NX N']; subst. destruct (IH N') as [C F]. destruct W as (W1 & W2 & W3 & W4). split.
  - simpl. unfold offset. rewrite W2. split; [lia|]. eapply climbing_low; [|exact C]. lia.
  - constructor; auto. unfold offset, blen. rewrite W2. split; [lia|].
    eexists. apply window_string with (o := o) (i := i) (n := n). repeat split; auto.
Qed.

(** C71 for the ASTs of parsed texts. *)
Theorem parsed_view : forall c, cf_esc c = None -> forall g ps, compile (cf_eng c) g = COk ps -> readable g ->
  forall f r s v s', engine_ok (cf_eng c) -> in_range s -> (forall o, src s = Some o -> blen (origin o) <= max_int) ->
  patterns_grammar (participates (cf_eng c)) g -> no_look_grammar g = true ->
  drawn_ok (cf_rnd c) (draws c f ps r s) -> result (parse_rule c f ps r s) v s' ->
  forall n b g', from_parser_node n g v = COk (b, g') ->
  settled (ABranch b) -> (forall s, In s (leaves v) -> slen s <> 0) ->
  forall quote extra k, exists t, Forall2 (label quote) (leaves v) (tips t) /\
    forall ord sorter path, any_order ord -> sorts sorter -> from_ast quote extra true ord sorter path k (ABranch b) = Some t.
Proof.
  intros c EC g ps CO RD f r s v s' EO IR MX PG NLG DR RES n b g' FP SE NZ quote extra k.
  assert (R := parsed_reads c EC g ps CO RD f r s v s' DR RES n b g' FP).
  destruct (result_ordered c EC g ps CO RD f r s v s' EO IR PG NLG DR RES) as (o & i & m & j & W & J & W' & OR).
  apply ordered_climbing in OR as [C F]; [|apply Forall_forall; auto].
  apply settled_view with (l := leaves v); auto.
  - eapply climbing_low; [|exact C]. lia.
  - destruct W as (W & _). specialize (MX _ W). eapply Forall_impl; [|exact F]. intros a [A1 A2]. split; auto. lia.
Qed.

Theorem compiled_view : forall c, cf_esc c = None -> forall g ps, compile (cf_eng c) g = COk ps -> readable (p_grammar ps) ->
  forall f r s v s', engine_ok (cf_eng c) -> in_range s -> (forall o, src s = Some o -> blen (origin o) <= max_int) ->
  patterns_grammar (participates (cf_eng c)) (p_grammar ps) -> no_look_grammar (p_grammar ps) = true ->
  drawn_ok (cf_rnd c) (draws c f ps r s) -> result (parse_rule c f ps r s) v s' ->
  forall n b g', from_parser_node n (p_grammar ps) v = COk (b, g') ->
  settled (ABranch b) -> (forall s, In s (leaves v) -> slen s <> 0) ->
  forall quote extra k, exists t, Forall2 (label quote) (leaves v) (tips t) /\
    forall ord sorter path, any_order ord -> sorts sorter -> from_ast quote extra true ord sorter path k (ABranch b) = Some t.
Proof.
  intros c EC g ps CO RD. apply (parsed_view c EC (p_grammar ps) ps); auto. eapply compiled_again; eauto. apply RD.
Qed.
