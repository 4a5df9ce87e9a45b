(** Proofs about the AST conversion that do not need conformance: leaves, the grammar map,
    comparison, ranges. *)
From Verif Require Import Base Scanner ScannerSpec ScannerProofs Syntax Resolve PegSpec Ast AstSpec.

(** * Induction *)

Section AnodeInd.
  Variable P : anode -> Prop.
  Variable Q : children anode -> Prop.
  Hypothesis HLeaf : forall s, P (ALeaf s).
  Hypothesis HExtra : forall d, P (AExtra d).
  Hypothesis HBranch : forall b, Forall (fun kv => Q (snd kv)) b -> P (ABranch b).
  Hypothesis HOne : forall n, P n -> Q (One n).
  Hypothesis HMany : forall ns, Forall P ns -> Q (Many ns).
  Fixpoint anode_ind' (n : anode) : P n :=
    let kids (c : children anode) : Q c :=
      match c with
      | One n => HOne n (anode_ind' n)
      | Many ns => HMany ns ((fix go (l : list anode) : Forall P l :=
          match l with [] => Forall_nil _ | x :: l' => Forall_cons x (anode_ind' x) (go l') end) ns)
      end in
    match n with
    | ALeaf s => HLeaf s
    | AExtra d => HExtra d
    | ABranch b => HBranch b ((fix go (l : branch) : Forall (fun kv => Q (snd kv)) l :=
        match l with [] => Forall_nil _ | x :: l' => Forall_cons x (kids (snd x)) (go l') end) b)
    end.
End AnodeInd.

(** * Leaves *)

Lemma cbind_inv : forall A B (m : cres A) (f : A -> cres B) b, cbind m f = COk b -> exists a, m = COk a /\ f a = COk b.
Proof. intros A B [a| |] f b H; try discriminate. eauto. Qed.

Lemma interleave_append : forall A (m : list A) ls1 l ls2 r,
  interleave (ls1 ++ l :: ls2) r -> interleave (ls1 ++ (l ++ m) :: ls2) (r ++ m).
Proof.
  intros A m ls1 l ls2 r H. remember (ls1 ++ l :: ls2) as ls eqn:E. revert ls1 l ls2 E.
  induction H as [ls F|a1 x k a2 rest H IH]; intros ls1 l ls2 E; subst.
  - apply Forall_app in F as [F1 F2]. inversion F2; subst. simpl.
    induction m as [|y m IHm]; [constructor; apply Forall_app; auto|].
    constructor. auto.
  - simpl. (* where is the taken list *)
    assert (D : (exists mid, ls1 = a1 ++ (x :: k) :: mid /\ a2 = mid ++ l :: ls2) \/
                (a1 = ls1 /\ l = x :: k /\ ls2 = a2) \/
                (exists mid, a1 = ls1 ++ l :: mid /\ ls2 = mid ++ (x :: k) :: a2)).
    { clear - E. revert ls1 E. induction a1 as [|y a1 IH]; intros ls1 E; destruct ls1 as [|z ls1]; simpl in E.
      - inversion E; subst. right. left. auto.
      - inversion E; subst. left. exists ls1. auto.
      - inversion E; subst. right. right. exists a1. auto.
      - inversion E; subst. destruct (IH ls1 H1) as [(mid & -> & ->)|[(-> & -> & ->)|(mid & -> & ->)]].
        + left. exists mid. auto.
        + right. left. auto.
        + right. right. exists mid. auto. }
    destruct D as [(mid & -> & ->)|[(-> & -> & ->)|(mid & -> & ->)]].
    + rewrite <- app_assoc. simpl. constructor. change (a1 ++ k :: mid ++ (l ++ m) :: ls2) with (a1 ++ (k :: mid) ++ (l ++ m) :: ls2).
      rewrite app_assoc. apply IH. rewrite <- app_assoc. reflexivity.
    + constructor. apply IH. reflexivity.
    + change (ls1 ++ (l ++ m) :: mid ++ (x :: k) :: a2) with (ls1 ++ ((l ++ m) :: mid) ++ (x :: k) :: a2).
      rewrite app_assoc. constructor. rewrite <- app_assoc. simpl. apply IH. rewrite <- app_assoc. reflexivity.
Qed.

Lemma interleave_snoc_nil : forall A (ls : list (list A)) r, interleave ls r -> interleave (ls ++ [[]]) r.
Proof.
  intros A ls r H. induction H as [ls F|a1 x k a2 rest H IH].
  - constructor. apply Forall_app. split; auto.
  - rewrite <- app_assoc in *. simpl in *. constructor. exact IH.
Qed.
Lemma interleave_snoc : forall A (ls : list (list A)) r m, interleave ls r -> interleave (ls ++ [m]) (r ++ m).
Proof. intros A ls r m H. apply (interleave_append _ m ls [] []). simpl. apply interleave_snoc_nil. exact H. Qed.

Lemma reads_aset : forall name c b l m ls,
  Forall2 (fun kv => reads_kids (snd kv)) b ls -> interleave ls l ->
  (forall k lk, lookup name b = Some k -> reads_kids k lk -> reads_kids c (lk ++ [m])) ->
  (lookup name b = None -> reads_kids c [m]) ->
  reads (ABranch (aset name c b)) (concat l ++ m).
Proof.
  intros name c b l m ls F I HS HN. replace (concat l ++ m) with (concat (l ++ [m])) by (rewrite concat_app; simpl; now rewrite app_nil_r).
  destruct (lookup name b) as [k|] eqn:E.
  - assert (X : exists b1 b2 k1, b = b1 ++ (k1, k) :: b2 /\ name = k1 /\ aset name c b = b1 ++ (k1, c) :: b2).
    { clear - E. induction b as [|[k' v] b IH]; simpl in *; [discriminate|].
      destruct (String.eqb name k') eqn:Q.
      - apply String.eqb_eq in Q. subst k'. inversion E; subst. exists [], b, name. auto.
      - destruct (IH E) as (b1 & b2 & k1 & -> & <- & A). exists ((k', v) :: b1), b2, name. rewrite A. auto. }
    destruct X as (b1 & b2 & k1 & -> & -> & ->).
    apply Forall2_app_inv_l in F as (ls1 & ls2 & F1 & F2 & ->). inversion F2; subst. simpl in *.
    eapply rd_branch with (ls := ls1 ++ (y ++ [m]) :: l').
    + apply Forall2_app; auto. constructor; [exact (HS _ _ eq_refl H1)|auto].
    + apply interleave_append. exact I.
  - assert (X : aset name c b = b ++ [(name, c)]).
    { clear - E. induction b as [|[k' v] b IH]; simpl in *; auto.
      destruct (String.eqb name k') eqn:Q; [discriminate|]. rewrite IH; auto. }
    rewrite X. eapply rd_branch with (ls := ls ++ [[m]]).
    + apply Forall2_app; auto.
    + apply interleave_snoc. exact I.
Qed.

Lemma reads_branch_inv : forall b l, reads (ABranch b) l ->
  exists ls l', l = concat l' /\ Forall2 (fun kv => reads_kids (snd kv)) b ls /\ interleave ls l'.
Proof. intros b l H. inversion H; subst. eauto. Qed.

Lemma badd_many_reads : forall name n b b' l m, reads (ABranch b) l -> reads n m ->
  badd_many name n b = COk b' -> reads (ABranch b') (l ++ m).
Proof.
  intros name n b b' l m R N H. unfold badd_many in H.
  apply reads_branch_inv in R as (ls & l' & -> & F & I).
  destruct (lookup name b) as [[k|ns]|] eqn:E; inversion H; subst; clear H.
  - apply reads_aset with (ls := ls); auto.
    + intros k lk HK RK. rewrite E in HK. inversion HK; subst. inversion RK; subst.
      constructor. apply Forall2_app; auto.
    + congruence.
  - apply reads_aset with (ls := ls); auto; try (intros; congruence).
    intros _. constructor. auto.
Qed.
Lemma badd_one_reads : forall name n b b' l m, reads (ABranch b) l -> reads n m ->
  badd_one name n b = COk b' -> reads (ABranch b') (l ++ m).
Proof.
  intros name n b b' l m R N H. unfold badd_one in H.
  apply reads_branch_inv in R as (ls & l' & -> & F & I).
  destruct (lookup name b) eqn:E; inversion H; subst; clear H.
  apply reads_aset with (ls := ls); auto; try (intros; congruence).
  intros _. constructor. auto.
Qed.
Lemma badd_reads : forall name n c b b' l m, reads (ABranch b) l -> reads n m ->
  badd name n c b = COk b' -> reads (ABranch b') (l ++ m).
Proof.
  intros name n [lo hi] b b' l m R N H. unfold badd in H.
  destruct lo as [|[|lo]]; destruct hi as [|[|hi]]; try discriminate;
    solve [eapply badd_one_reads; eauto | eapply badd_many_reads; eauto].
Qed.

Lemma reads_nil : reads (ABranch []) [].
Proof. apply (rd_branch [] [] []); repeat constructor. Qed.

Lemma regular_node : forall tag x cs, regular (Node tag x cs) ->
  match x with XBranch _ => False | XChoice _ => length cs = 1 | _ => True end /\ Forall regular cs.
Proof.
  intros tag x cs [H1 H2]. split; [exact H1|]. clear H1. induction cs as [|c cs IH]; constructor.
  - apply H2.
  - apply IH. apply H2.
Qed.

(** The step of a loop over children. *)
Lemma each_ind : forall B (f : nat -> tree -> B -> cres B) (P : list tree -> B -> Prop) cs,
  forall i done b b', P done b ->
  (forall j c done b b', In c cs -> P done b -> f j c b = COk b' -> P (done ++ [c]) b') ->
  each f i cs b = COk b' -> P (done ++ cs) b'.
Proof.
  intros B f P. induction cs as [|c cs IH]; intros i done b b' P0 S H; simpl in H.
  - inversion H; subst. rewrite app_nil_r. exact P0.
  - apply cbind_inv in H as (b1 & H1 & H2).
    replace (done ++ c :: cs) with ((done ++ [c]) ++ cs) by (rewrite <- app_assoc; auto).
    eapply IH; [|intros; eapply S; eauto; right; auto|exact H2]. eapply S; eauto. now left.
Qed.

Lemma no_ext_lookup : forall g r t, no_ext_grammar g = true -> lookup r g = Some t -> no_ext t = true.
Proof.
  intros g r t H L. apply lookup_In in L. unfold no_ext_grammar in H. rewrite forallb_forall in H. apply (H _ L).
Qed.
Lemma no_ext_aset : forall g k t, no_ext_grammar g = true -> no_ext t = true -> no_ext_grammar (aset k t g) = true.
Proof.
  induction g as [|[k' v] g IH]; intros k t H T; simpl in *.
  - rewrite T. auto.
  - apply andb_true_iff in H as [H1 H2]. destruct (String.eqb k k'); simpl.
    + rewrite T. auto.
    + rewrite H1. simpl. apply IH; auto.
Qed.
Lemma no_ext_merge : forall nested g, no_ext_grammar g = true -> no_ext_grammar nested = true ->
  no_ext_grammar (merge_rules g nested) = true.
Proof.
  unfold merge_rules. induction nested as [|[k t] nested IH]; intros g H N; simpl in *; auto.
  apply andb_true_iff in N as [N1 N2]. apply IH; auto. apply no_ext_aset; auto.
Qed.

Definition oterm_no_ext (ot : option term) : Prop := match ot with Some t => no_ext t = true | None => True end.

Ltac inv_bind H :=
  repeat match type of H with
  | cbind _ _ = COk _ => let a := fresh "a" in let E := fresh "E" in apply cbind_inv in H as (a & E & H)
  | (let '(_, _) := ?p in _) = COk _ => destruct p
  end.

Lemma flat_snoc : forall (done : list tree) c, flat_map leaves (done ++ [c]) = flat_map leaves done ++ leaves c.
Proof. intros. rewrite flat_map_app. simpl. rewrite app_nil_r. auto. Qed.

Lemma from_node_reads : forall f ot ctrs e b g b' g' l,
  from_node f ot ctrs e (b, g) = COk (b', g') -> no_ext_grammar g = true -> oterm_no_ext ot -> regular e ->
  reads (ABranch b) l -> reads (ABranch b') (l ++ leaves e) /\ no_ext_grammar g' = true.
Proof.
  induction f as [|f IH]; intros ot ctrs e b g b' g' l H G T RE R; [discriminate|].
  destruct ot as [t|]; [|discriminate].
  assert (Loop : forall (F : nat -> tree -> branch * grammar -> cres (branch * grammar)) cs b0 g0 b1 g1 l0,
    Forall regular cs ->
    (forall i c b g b' g' l, In c cs -> regular c -> F i c (b, g) = COk (b', g') -> no_ext_grammar g = true -> reads (ABranch b) l ->
        reads (ABranch b') (l ++ leaves c) /\ no_ext_grammar g' = true) ->
    each F 0 cs (b0, g0) = COk (b1, g1) -> no_ext_grammar g0 = true -> reads (ABranch b0) l0 ->
    reads (ABranch b1) (l0 ++ flat_map leaves cs) /\ no_ext_grammar g1 = true).
  { clear. intros F cs b0 g0 b1 g1 l0 RC S E G0 R0.
    pose proof (each_ind _ F (fun done st => reads (ABranch (fst st)) (l0 ++ flat_map leaves done) /\ no_ext_grammar (snd st) = true)
                  cs 0 [] (b0, g0) (b1, g1)) as X.
    apply X; [simpl; rewrite app_nil_r; auto| |exact E].
    intros j c done [bx gx] [by_ gy] IC [P1 P2] E2. simpl in *. rewrite flat_snoc, app_assoc.
    eapply S; eauto. rewrite Forall_forall in RC. auto. }
  simpl in H. destruct t as [r|s|s|i d|s|ts|ts|ts|t sep a cs ce|t|t mn mx|n t|t nested|t]; try discriminate; simpl in T.
  - (* rule *)
    inv_bind H. inversion H; subst.
    assert (X : reads (ABranch b0) (leaves e) /\ no_ext_grammar g' = true).
    { rewrite <- (app_nil_l (leaves e)). eapply IH; eauto using reads_nil.
      destruct (lookup r g) eqn:L; simpl; auto. eapply no_ext_lookup; eauto. }
    destruct X as [X1 X2]. split; auto. eapply badd_reads; eauto.
  - destruct e as [| s0 |]; try discriminate. inv_bind H. inversion H; subst. split; auto. simpl.
    eapply badd_reads; eauto. constructor.
  - destruct e as [| s0 |]; try discriminate. inv_bind H. inversion H; subst. split; auto. simpl.
    eapply badd_reads; eauto. constructor.
  - (* back reference *)
    destruct e as [tag x cs|s|].
    + inv_bind H. inversion H; subst. apply regular_node in RE as [_ RC].
      pose proof (Loop (fun _ c st => from_node f (Some (TREF i d)) ctrs c st) cs [] g b0 g' [] RC) as X.
      destruct X as [X1 X2]; auto using reads_nil.
      { intros j c b1 g1 b2 g2 l1 IC RC1 E1 G1 R1. cbv beta in E1. eapply IH; [exact E1|..]; auto. }
      simpl in X1. split; auto. simpl. eapply badd_reads; eauto.
    + inv_bind H. inversion H; subst. split; auto. eapply badd_reads; eauto. constructor.
    + inversion H; subst. simpl. rewrite app_nil_r. auto.
  - (* sequence *)
    destruct e as [tag x cs|s|]; try discriminate. apply regular_node in RE as [_ RC].
    eapply Loop; eauto. intros j c b1 g1 b2 g2 l1 IC RC1 E1 G1 R1. simpl in E1.
    destruct (nth_error ts j) as [t|] eqn:N; [|discriminate]. eapply IH; eauto. simpl.
    rewrite forallb_forall in T. apply T. eapply nth_error_In; eauto.
  - (* choice *)
    destruct e as [tag x cs|s|]; try discriminate. destruct x as [|c| |]; try discriminate.
    apply regular_node in RE as [L1 RC]. inv_bind H.
    destruct (nth_error ts c) as [t|] eqn:N; [|discriminate]. destruct cs as [|k cs]; [discriminate|].
    destruct cs as [|k2 cs]; [|discriminate]. inversion RC; subst.
    assert (R1 : reads (ABranch a) l).
    { rewrite <- (app_nil_r l). eapply badd_many_reads; eauto. constructor. }
    simpl. rewrite app_nil_r. eapply IH; eauto. simpl. rewrite forallb_forall in T. apply T. eapply nth_error_In; eauto.
  - (* delimited list *)
    destruct e as [tag x kids|s|]; try discriminate. destruct x as [| |na|]; try discriminate.
    apply regular_node in RE as [_ RC]. apply andb_true_iff in T as [T1 T2].
    assert (TL : forall j, no_ext (lr_term t sep (TDelim t sep a cs ce) na j) = true).
    { intros j. unfold lr_term. destruct (Nat.odd j); auto.
      destruct na, (Nat.even (Nat.div2 j)); simpl; auto; rewrite T1, T2; auto. }
    eapply Loop; eauto. intros j c b1 g1 b2 g2 l1 IC RC1 E1 G1 R1. simpl in E1.
    destruct c as [ctag cx cc|s|].
    + destruct (term_same _ _) as [[]|]; [| |discriminate].
      * inv_bind E1. inversion E1; subst.
        assert (X : reads (ABranch b0) (leaves (Node ctag cx cc)) /\ no_ext_grammar g2 = true).
        { rewrite <- (app_nil_l (leaves _)). eapply IH; eauto using reads_nil. apply TL. }
        destruct X as [X1 X2]. split; auto. eapply badd_one_reads; eauto.
      * eapply IH; eauto. apply TL.
    + destruct (term_same _ _) as [[]|]; [| |discriminate].
      * eapply IH; eauto.
      * eapply IH; eauto. apply TL.
    + inv_bind E1. inversion E1; subst. split; auto.
      eapply badd_many_reads; [exact R1|apply rd_extra|eassumption].
  - destruct e as [tag x cs|s|]; try discriminate. apply regular_node in RE as [_ RC].
    eapply Loop; eauto. intros j c b1 g1 b2 g2 l1 IC RC1 E1 G1 R1. cbv beta in E1. eapply IH; [exact E1|..]; auto.
  - destruct e as [tag x cs|s|]; try discriminate. apply regular_node in RE as [_ RC].
    eapply Loop; eauto. intros j c b1 g1 b2 g2 l1 IC RC1 E1 G1 R1. cbv beta in E1. eapply IH; [exact E1|..]; auto.
  - inv_bind H. inversion H; subst.
    assert (X : reads (ABranch b0) (leaves e) /\ no_ext_grammar g' = true).
    { rewrite <- (app_nil_l (leaves e)). eapply IH; eauto using reads_nil. }
    destruct X as [X1 X2]. split; auto. eapply badd_reads; eauto.
  - apply andb_true_iff in T as [T1 T2]. eapply IH; eauto. apply no_ext_merge; auto.
  - eapply IH; eauto.
Qed.

Theorem from_parser_node_reads : forall f g e b g', no_ext_grammar g = true -> regular e ->
  from_parser_node f g e = COk (b, g') -> reads (ABranch b) (leaves e).
Proof.
  intros f g e b g' G R H. destruct e as [tag x cs|s|]; simpl in H; [| |discriminate].
  - inv_bind H. rewrite <- (app_nil_l (leaves _)). eapply from_node_reads; eauto.
    + destruct (lookup tag g) eqn:L; simpl; auto. eapply no_ext_lookup; eauto.
    + apply (rd_branch [("@rule", One (AExtra (DRule tag)))] [[[]]] [[]])%string.
      * constructor; [|constructor]. simpl. constructor. constructor.
      * apply (il_take [] [] [] []). constructor. constructor; auto.
  - inversion H; subst. apply (rd_branch [("", One (ALeaf s))] [[[s]]] [[s]])%string.
    + constructor; [|constructor]. simpl. constructor. constructor.
    + apply (il_take [] [s] [] []). constructor. constructor; auto.
Qed.

(** * The grammar map *)

Lemma no_scoped_lookup : forall g r t, no_scoped_grammar g = true -> lookup r g = Some t -> no_scoped t = true.
Proof.
  intros g r t H L. apply lookup_In in L. unfold no_scoped_grammar in H. rewrite forallb_forall in H. apply (H _ L).
Qed.
Definition oterm_no_scoped (ot : option term) : Prop := match ot with Some t => no_scoped t = true | None => True end.

Lemma each_keeps : forall (F : nat -> tree -> branch * grammar -> cres (branch * grammar)) g cs,
  (forall i c b b' g', F i c (b, g) = COk (b', g') -> g' = g) ->
  forall i b b' g', each F i cs (b, g) = COk (b', g') -> g' = g.
Proof.
  intros F g cs S. induction cs as [|c cs IH]; intros i b b' g' H; simpl in H.
  - inversion H; auto.
  - apply cbind_inv in H as ([b1 g1] & H1 & H2). apply S in H1. subst. eauto.
Qed.

Lemma from_node_keeps : forall f ot ctrs e b g b' g', from_node f ot ctrs e (b, g) = COk (b', g') ->
  no_scoped_grammar g = true -> oterm_no_scoped ot -> g' = g.
Proof.
  induction f as [|f IH]; intros ot ctrs e b g b' g' H G T; [discriminate|].
  destruct ot as [t|]; [|discriminate].
  simpl in H. destruct t as [r|s|s|i d|s|ts|ts|ts|t sep a cs ce|t|t mn mx|n t|t nested|t]; try discriminate; simpl in T.
  - inv_bind H. inversion H; subst. eapply IH; eauto.
    destruct (lookup r g) eqn:L; simpl; auto. eapply no_scoped_lookup; eauto.
  - destruct e as [| s0 |]; try discriminate. inv_bind H. inversion H; subst. auto.
  - destruct e as [| s0 |]; try discriminate. inv_bind H. inversion H; subst. auto.
  - destruct e as [tag x cs|s|].
    + inv_bind H. inversion H; subst. eapply each_keeps; [|eassumption].
      intros j c b1 b2 g2 E1. cbv beta in E1. eapply IH; [exact E1|..]; auto.
    + inv_bind H. inversion H; subst. auto.
    + inversion H; auto.
  - destruct e as [tag x cs|s0|]; [destruct x|..]; try (inversion H; now auto).
    inv_bind H. inversion H; auto.
  - destruct e as [tag x cs|s|]; try discriminate. eapply each_keeps; [|eassumption].
    intros j c b1 b2 g2 E1. cbv beta in E1. destruct (nth_error ts j) as [t|] eqn:N; [|discriminate].
    eapply IH; [exact E1|..]; auto. simpl. rewrite forallb_forall in T. apply T. eapply nth_error_In; eauto.
  - destruct e as [tag x cs|s|]; try discriminate. destruct x as [|c| |]; try discriminate.
    inv_bind H. destruct (nth_error ts c) as [t|] eqn:N; [|discriminate]. destruct cs as [|k cs]; [discriminate|].
    eapply IH; [exact H|..]; auto. simpl. rewrite forallb_forall in T. apply T. eapply nth_error_In; eauto.
  - destruct e as [tag x kids|s|]; try discriminate. destruct x as [| |na|]; try discriminate.
    apply andb_true_iff in T as [T1 T2].
    assert (TL : forall j, no_scoped (lr_term t sep (TDelim t sep a cs ce) na j) = true).
    { intros j. unfold lr_term. destruct (Nat.odd j); auto.
      destruct na, (Nat.even (Nat.div2 j)); simpl; auto; rewrite T1, T2; auto. }
    eapply each_keeps; [|eassumption]. intros j c b1 b2 g2 E1. cbv beta in E1. cbn [fst snd] in E1.
    destruct c as [ctag cx cc|s|].
    + destruct (term_same _ _) as [[]|]; [| |discriminate].
      * inv_bind E1. inversion E1; subst. eapply IH; [eassumption|..]; auto. apply TL.
      * eapply IH; [exact E1|..]; auto. apply TL.
    + destruct (term_same _ _) as [[]|]; [| |discriminate].
      * eapply IH; [exact E1|..]; auto.
      * eapply IH; [exact E1|..]; auto. apply TL.
    + inv_bind E1. inversion E1; subst. auto.
  - destruct e as [tag x cs|s|]; try discriminate. eapply each_keeps; [|eassumption].
    intros j c b1 b2 g2 E1. cbv beta in E1. eapply IH; [exact E1|..]; auto.
  - destruct e as [tag x cs|s|]; try discriminate. eapply each_keeps; [|eassumption].
    intros j c b1 b2 g2 E1. cbv beta in E1. eapply IH; [exact E1|..]; auto.
  - inv_bind H. inversion H; subst. eapply IH; eauto.
  - eapply IH; eauto.
Qed.

Theorem from_parser_node_keeps : forall f g e b g', no_scoped_grammar g = true ->
  from_parser_node f g e = COk (b, g') -> g' = g.
Proof.
  intros f g e b g' G H. destruct e as [tag x cs|s|]; simpl in H; [| |discriminate].
  - inv_bind H. eapply from_node_keeps; eauto.
    destruct (lookup tag g) eqn:L; simpl; auto. eapply no_scoped_lookup; eauto.
  - inversion H; auto.
Qed.

Section ToKeeps.
  Variables (run : term -> branch * grammar -> cres (otree * (branch * grammar))) (g : grammar).
  Lemma to_seq_keeps : forall ts, (forall t b v b' g', In t ts -> run t (b, g) = COk (v, (b', g')) -> g' = g) ->
    forall acc b v b' g', to_seq run ts acc (b, g) = COk (v, (b', g')) -> g' = g.
  Proof.
    induction ts as [|t ts IH]; intros K acc b v b' g' H; simpl in H; [inversion H; auto|].
    apply cbind_inv in H as ([v1 [b1 g1]] & H1 & H2). apply K in H1; [|now left]. subst.
    destruct (is_onil v1); [inversion H2; auto|]. eapply IH; eauto. intros; eapply K; eauto. now right.
  Qed.
  Lemma to_delim_keeps : forall t sep, (forall t0 b v b' g', t0 = t \/ t0 = sep -> run t0 (b, g) = COk (v, (b', g')) -> g' = g) ->
    forall n i acc b v b' g', to_delim run n t sep i acc (b, g) = COk (v, (b', g')) -> g' = g.
  Proof.
    intros t sep K. induction n as [|n IH]; intros i acc b v b' g' H; cbn [to_delim] in H; [discriminate|].
    apply cbind_inv in H as ([v1 [b1 g1]] & H1 & H2).
    assert (g1 = g) by (destruct (Nat.even i); apply K in H1; auto). subst.
    destruct (is_onil v1).
    - destruct (Nat.even i); [discriminate|]. inversion H2; auto.
    - eapply IH; eauto.
  Qed.
  Lemma to_quant_keeps : forall t, (forall b v b' g', run t (b, g) = COk (v, (b', g')) -> g' = g) ->
    forall n mn mx i acc b v b' g', to_quant run n t mn mx i acc (b, g) = COk (v, (b', g')) -> g' = g.
  Proof.
    intros t K. induction n as [|n IH]; intros mn mx i acc b v b' g' H; cbn [to_quant] in H; [discriminate|].
    unfold to_quant_end in H. destruct (max_less_than mx i).
    - destruct (quant_contains _ _ _); inversion H; auto.
    - apply cbind_inv in H as ([v1 [b1 g1]] & H1 & H2). apply K in H1. subst.
      destruct (is_onil v1); [destruct (quant_contains _ _ _); inversion H2; auto|]. eapply IH; eauto.
  Qed.
End ToKeeps.

Lemma to_node_keeps : forall f ot ctrs b g v b' g', to_node f ot ctrs (b, g) = COk (v, (b', g')) ->
  no_scoped_grammar g = true -> oterm_no_scoped ot -> g' = g.
Proof.
  induction f as [|f IH]; intros ot ctrs b g v b' g' H G T; [discriminate|].
  destruct ot as [t|]; [|discriminate].
  cbn [to_node] in H. destruct t as [r|s|s|i d|s|ts|ts|ts|t sep a cs ce|t|t mn mx|n t|t nested|t]; try discriminate; simpl in T.
  - inv_bind H. destruct o as [n|]; [|inversion H; auto]. inv_bind H.
    destruct n as [b2|s|d]; [|inversion H; auto|discriminate].
    inv_bind H. inversion H; subst. eapply IH; eauto.
    destruct (lookup r g) eqn:L; simpl; auto. eapply no_scoped_lookup; eauto.
  - inv_bind H. destruct o as [[]|]; inversion H; auto.
  - inv_bind H. destruct o as [[]|]; inversion H; auto.
  - eapply to_seq_keeps; [|exact H]. intros t b1 v1 b2 g2 I E. cbv beta in E. eapply IH; [exact E|..]; auto. simpl. rewrite forallb_forall in T. auto.
  - inv_bind H. destruct o as [[b2|s|[r|c|s|z]]|]; try discriminate; [|inversion H; auto].
    destruct (nth_error ts c) as [t|] eqn:N; [|discriminate]. inv_bind H. inversion H; subst.
    eapply IH; [eassumption|..]; auto. simpl. rewrite forallb_forall in T. apply T. eapply nth_error_In; eauto.
  - apply andb_true_iff in T as [T1 T2]. eapply to_delim_keeps; [|exact H].
    intros t0 b1 v1 b2 g2 [->| ->] E; cbv beta in E; (eapply IH; [exact E|..]; auto).
  - eapply IH; eauto.
  - eapply to_quant_keeps; [|exact H]. intros b1 v1 b2 g2 E; cbv beta in E; (eapply IH; [exact E|..]; auto).
  - inv_bind H. destruct o as [[b2|s|d]|]; try (inversion H; now auto). inv_bind H. inversion H; subst. eapply IH; eauto.
  - eapply IH; eauto.
Qed.

Theorem to_parser_node_keeps : forall f g b v g', no_scoped_grammar g = true ->
  to_parser_node f g b = COk (v, g') -> g' = g.
Proof.
  intros f g b v g' G H. unfold to_parser_node in H. inv_bind H.
  destruct o as [[b2|s|[r|c|s|z]]|]; try discriminate. inv_bind H. inversion H; subst.
  eapply to_node_keeps; eauto. destruct (lookup r g) eqn:L; simpl; auto. eapply no_scoped_lookup; eauto.
Qed.
