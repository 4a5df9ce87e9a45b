(** Proofs about what validation reports. *)
From Verif Require Import Base Scanner Syntax Engine Resolve Ast AstProofs WbnfAst Walker WalkerSpec WalkerProofs Build Recursion RecursionSpec RecursionProofs Validate ValidSpec NumSpec NumProofs.

(** ** Walks whose stoppers do not depend on the state *)
Section Steps.
  Context {St : Type}.
  Variables (enter : kind -> anode -> St -> cres (option stopper * St)) (stop : kind -> anode -> bool).
  Hypothesis enter_stops : forall k n st s st', enter k n st = COk (s, st') -> s = if stop k n then Some NodeExiter else None.
  Hypothesis stop_inner : forall k n, leaf_kind k = true -> stop k n = false.

  Fixpoint steps (evs : list event) (st : St) : cres St :=
    match evs with
    | [] => COk st
    | Enter k n :: evs => cbind (enter k n st) (fun '(_, st) => steps evs st)
    | Exit _ _ :: evs => steps evs st
    end.
  Lemma steps_app : forall a b st, steps (a ++ b) st = cbind (steps a st) (steps b).
  Proof. induction a as [|[k n|k n] a IH]; intros b st; simpl; auto. destruct (enter k n st) as [[s st']| |]; simpl; auto. Qed.

  Lemma walk_steps : forall fuel k n st s st', walk enter (fun _ _ st => COk (None, st)) fuel k n st = COk (s, st') ->
    s = None /\ exists evs, tour stop k n evs /\ steps evs st = COk st'.
  Proof.
    induction fuel as [|fuel IH]; intros k n st s st' W; [discriminate|]. cbn [walk] in W.
    apply cbind_inv in W as [[s1 st1] [A W]]. pose proof (enter_stops _ _ _ _ _ A) as S1. destruct (leaf_kind k) eqn:LK.
    - rewrite (stop_inner k n LK) in S1. subst s1. inversion W; subst. split; auto. exists [Enter k n]. split; [constructor; now rewrite <- leaf_token|].
      cbn [steps]. rewrite A. reflexivity.
    - assert (NT : token_kind k = false) by now rewrite <- leaf_token. destruct (stop k n) eqn:SK; subst s1; cbn [reaction NodeExiter exit_node] in W.
      + inversion W; subst. split; auto. exists [Enter k n]. split; [apply tour_stop; auto|]. cbn [steps]. rewrite A. reflexivity.
      + assert (Q : forall l st c, walk_children (walk enter (fun _ _ st => COk (None, st)) fuel) l st = COk c ->
          exists st' evs, c = inr st' /\ tours stop l evs /\ steps evs st = COk st').
        { induction l as [|[k' m] l IHl]; intros st0 c H; cbn [walk_children] in H.
          - inversion H; subst. exists st0, []. repeat split. constructor.
          - apply cbind_inv in H as [[s2 st2] [H2 H]]. apply IH in H2 as (-> & evs1 & T1 & A1). cbn [reaction] in H.
            apply IHl in H as (st3 & evs2 & -> & T2 & A2). exists st3, (evs1 ++ evs2). split; auto. split; [constructor; auto|].
            rewrite steps_app, A1. exact A2. }
        apply cbind_inv in W as [c [H W]]. apply Q in H as (st2 & evs2 & -> & T2 & A2). cbn [cbind] in W. inversion W; subst. split; auto.
        exists (Enter k n :: evs2 ++ [Exit k n]). split; [apply tour_node; auto; now rewrite expected_visited|].
        cbn [steps]. rewrite A. cbn [cbind]. rewrite steps_app, A2. reflexivity.
  Qed.
End Steps.

(** ** Texts of tokens *)
Lemma says_one : forall name n x, says name n x <-> exists m, one name n = Some m /\ string_of (Some m) = COk x.
Proof.
  intros name n x. pose proof (one_labelled name n) as H. unfold says. split.
  - intros (m & more & b & L & T & ->). exists m. split; [rewrite L in H; destruct (one name n); cbn in H; congruence|]. unfold string_of. rewrite T. reflexivity.
  - intros (m & L & T). rewrite L in H. cbn in H. destruct (labelled name n) as [|y l]; inversion H; subst. unfold string_of in T. apply cbind_inv in T as [b [B T]]. inversion T; subst. eauto 10.
Qed.
Lemma none_one : forall name n, labelled name n = [] <-> one name n = None.
Proof. intros name n. pose proof (one_labelled name n) as H. destruct (one name n); destruct (labelled name n); cbn in H; split; congruence. Qed.
Lemma says_or_none_one : forall name n x, says_or_none name n x <-> string_of (one name n) = COk x.
Proof.
  intros name n x. unfold says_or_none. rewrite says_one, none_one. split.
  - intros [(m & -> & T)|[-> ->]]; auto.
  - destruct (one name n) as [m|]; [eauto|]. intros T. inversion T; auto.
Qed.
Lemma says_or_none_det : forall name n x y, says_or_none name n x -> says_or_none name n y -> x = y.
Proof. intros name n x y. rewrite !says_or_none_one. congruence. Qed.
Lemma says_det : forall name n x y, says name n x -> says name n y -> x = y.
Proof. intros name n x y A B. eapply says_or_none_det; left; eauto. Qed.
Lemma says_number_bound : forall name q k, says_number name q k <-> bound (one name q) = COk k.
Proof.
  intros name q k. unfold says_number, bound. split.
  - intros [[S ->]|(x & S & A)].
    + apply says_or_none_one in S. rewrite S. reflexivity.
    + assert (T : says_or_none name q x) by now left. apply says_or_none_one in T. rewrite T. cbn [cbind]. assert (NE : x <> ""%string) by (intros ->; destruct A as [A _]; apply numeral_digits in A as [A _]; discriminate).
      apply String.eqb_neq in NE. rewrite NE. unfold opanic. apply atoi_numeral in A. rewrite A. auto.
  - intros H. apply cbind_inv in H as [x [T H]]. destruct (String.eqb_spec x "") as [->|NE].
    + inversion H; subst. left. split; auto. apply says_or_none_one. auto.
    + right. exists x. apply says_or_none_one in T. destruct T as [T|[_ T]]; [|contradiction]. split; auto. apply atoi_numeral.
      unfold opanic in H. destruct (atoi_text x); inversion H; auto.
Qed.

(** ** The definitions *)
Definition defining (k : kind) (n : anode) (st : defined) : cres (option stopper * defined) :=
  match k with
  | KProd => cbind (string_of (one "IDENT" n)) (fun x => COk (Some NodeExiter, add_rule x st))
  | KPragmaMacrodef => cbind (string_of (one "name" n)) (fun x =>
      let st := add_rule x st in COk (Some NodeExiter, mkDefined (d_dupes st) (d_names st) (aset x n (d_macros st))))
  | _ => COk (None, st)
  end.
Lemma defining_stops : forall k n st s st', defining k n st = COk (s, st') -> s = if is_definition k n then Some NodeExiter else None.
Proof.
  intros k n st s st' H. destruct k; cbn [defining is_definition] in *; try (inversion H; auto; fail); apply cbind_inv in H as [x [_ H]]; inversion H; auto.
Qed.
Lemma add_fresh : forall x d, ~ In x (d_names d) -> add_rule x d = mkDefined (d_dupes d) (d_names d ++ [x]) (d_macros d).
Proof. intros x d H. unfold add_rule, with_. apply mem_false in H. rewrite H. reflexivity. Qed.
Lemma add_dupe : forall x d, In x (d_names d) -> add_rule x d = mkDefined (d_dupes d ++ [x]) (d_names d) (d_macros d).
Proof. intros x d H. unfold add_rule, with_. apply mem_true in H. rewrite H. reflexivity. Qed.
Lemma dupes_stay : forall evs d d', steps defining evs d = COk d' -> d_dupes d <> [] -> d_dupes d' <> [].
Proof.
  assert (A : forall x d, d_dupes d <> [] -> d_dupes (add_rule x d) <> []).
  { intros x d H. unfold add_rule. cbn [d_dupes]. destruct (mem x (d_names d)); auto. intros E. apply app_eq_nil in E as [E _]. auto. }
  induction evs as [|[k n|k n] evs IH]; intros d d' H N; cbn [steps] in H; [inversion H; subst; auto| |eauto].
  apply cbind_inv in H as [[s d1] [D H]]. eapply IH; [exact H|].
  destruct k; cbn [defining] in D; try (inversion D; subst; auto; fail); apply cbind_inv in D as [x [_ D]]; inversion D; subst; cbn [d_dupes]; auto; apply A; auto.
Qed.
Definition macro_in (evs : list event) (x : string) (m : anode) : Prop := In (Enter KPragmaMacrodef m) evs /\ says_or_none "name" m x.
Lemma titled_has : forall evs xs, titled evs xs -> forall m x, In (Enter KPragmaMacrodef m) evs -> says_or_none "name" m x -> In x xs.
Proof.
  induction 1 as [|m0 x0 evs xs T0 T IH|m0 x0 evs xs T0 T IH|e evs xs N1 N2 T IH]; intros m x I SX; [contradiction| | |]; destruct I as [E|I].
  - discriminate.
  - right. eauto.
  - inversion E; subst. left. eapply says_or_none_det; eauto.
  - right. eauto.
  - destruct (N2 _ E).
  - eauto.
Qed.
Lemma steps_defining : forall evs d d', steps defining evs d = COk d' -> d_dupes d = [] -> NoDup (d_names d) ->
  exists xs, titled evs xs /\ (d_dupes d' = [] <-> NoDup (d_names d ++ xs)) /\
    (d_dupes d' = [] -> d_names d' = d_names d ++ xs /\ forall x m, lookup x (d_macros d') = Some m <->
       macro_in evs x m \/ (lookup x (d_macros d) = Some m /\ ~ exists m', macro_in evs x m')).
Proof.
  induction evs as [|e evs IH]; intros d d' H DD ND; cbn [steps] in H.
  - inversion H; subst. exists []. split; [constructor|]. rewrite app_nil_r. split; [tauto|]. intros _. split; auto. intros x m. split.
    + intros L. right. split; auto. intros (m' & [] & _).
    + intros [([] & _)|[L _]]; auto.
  - assert (OTHER : forall e, (forall m, e <> Enter KProd m) -> (forall m, e <> Enter KPragmaMacrodef m) -> steps defining evs d = COk d' ->
      exists xs, titled (e :: evs) xs /\ (d_dupes d' = [] <-> NoDup (d_names d ++ xs)) /\
      (d_dupes d' = [] -> d_names d' = d_names d ++ xs /\ forall x m, lookup x (d_macros d') = Some m <->
       macro_in (e :: evs) x m \/ (lookup x (d_macros d) = Some m /\ ~ exists m', macro_in (e :: evs) x m'))).
    { intros e0 N1 N2 H0. destruct (IH _ _ H0 DD ND) as (xs & T & DU & REST). exists xs. split; [apply titled_other; auto|]. split; auto. intros D0.
      destruct (REST D0) as (NM & L). split; auto. intros x m. rewrite L. unfold macro_in.
      assert (X : forall m', In (Enter KPragmaMacrodef m') (e0 :: evs) <-> In (Enter KPragmaMacrodef m') evs).
      { intros m'. simpl. split; [intros [E|I]; [destruct (N2 _ E)|auto]|auto]. }
      split; intros [[I S]|[K NE]].
      - left. rewrite X. auto.
      - right. split; auto. intros (m' & I & S). apply NE. exists m'. rewrite X in I. auto.
      - left. rewrite X in I. auto.
      - right. split; auto. intros (m' & I & S). apply NE. exists m'. rewrite X. auto. }
    destruct e as [k n|k n]; [|apply OTHER; auto; discriminate].
    apply cbind_inv in H as [[s d1] [D H]].
    destruct k; cbn [defining] in D; try (inversion D; subst; apply OTHER; auto; discriminate).
    + (* macro *) apply cbind_inv in D as [x [SX D]]. inversion D; subst; clear D. apply says_or_none_one in SX.
      assert (GO : forall d1 xs0, d1 = mkDefined (d_dupes d) xs0 (aset x n (d_macros d)) -> steps defining evs d1 = COk d' -> NoDup xs0 -> xs0 = d_names d ++ [x] ->
        exists xs, titled (Enter KPragmaMacrodef n :: evs) xs /\ (d_dupes d' = [] <-> NoDup (d_names d ++ xs)) /\
        (d_dupes d' = [] -> d_names d' = d_names d ++ xs /\ forall y m, lookup y (d_macros d') = Some m <->
          macro_in (Enter KPragmaMacrodef n :: evs) y m \/ (lookup y (d_macros d) = Some m /\ ~ exists m', macro_in (Enter KPragmaMacrodef n :: evs) y m'))).
      { intros d1 xs0 -> H1 ND1 ->. destruct (IH _ _ H1 DD ND1) as (xs & T & DU & REST). cbn [d_names d_macros] in *. exists (x :: xs).
        split; [apply titled_macro; auto|]. rewrite <- app_assoc in *. split; auto. intros D0. destruct (REST D0) as (NM & L). split; [rewrite NM; reflexivity|].
        intros y m. rewrite L. unfold macro_in. destruct (String.eqb_spec x y) as [->|NE].
        - rewrite lookup_aset_eq. split.
          + intros [[I S]|[E NE]]; [left; split; [now right|auto]|]. inversion E; subst. left. split; [now left|auto].
          + intros [[[E|I] S]|[K NE]]; [inversion E; subst| |].
            * right. split; auto. intros (m' & I & S'). apply DU in D0. clear -D0 T I S'.
              (* a second macro of the same name *)
              assert (In y xs) by (eapply titled_has; eauto).
              apply NoDup_remove_2 in D0. apply D0. apply in_or_app. right. auto.
            * left. auto.
            * exfalso. apply NE. exists n. split; [now left|auto].
        - rewrite lookup_aset_neq by auto. split.
          + intros [[I S]|[E N]]; [left; split; [now right|auto]|]. right. split; auto. intros (m' & [I|I] & S).
            * inversion I; subst. apply NE. eapply says_or_none_det; eauto.
            * apply N. exists m'. auto.
          + intros [[[I|I] S]|[E N]].
            * inversion I; subst. destruct NE. eapply says_or_none_det; eauto.
            * left. auto.
            * right. split; auto. intros (m' & I & S). apply N. exists m'. split; [now right|auto]. }
      destruct (in_dec string_dec x (d_names d)) as [I|NI].
      * pose proof (proj2 (mem_true _ _) I) as M; unfold add_rule, with_ in H; cbn [d_dupes d_names d_macros] in H; rewrite M in H. cbn [d_dupes d_names d_macros] in *. pose proof (dupes_stay _ _ _ H) as DS. cbn [d_dupes] in DS. rewrite DD in DS. specialize (DS ltac:(discriminate)).
        assert (exists xs, titled evs xs) as [xs T].
        { clear -H. revert d' H. generalize (mkDefined (d_dupes d ++ [x]) (d_names d) (aset x n (d_macros d))). induction evs as [|e evs IHe]; intros d0 d' H; [exists []; constructor|].
          cbn [steps] in H. destruct e as [k m|k m]; [|destruct (IHe _ _ H) as [xs T]; exists xs; apply titled_other; auto; discriminate].
          apply cbind_inv in H as [[s d1] [D H]]. destruct (IHe _ _ H) as [xs T]. destruct k; cbn [defining] in D; try (exists xs; apply titled_other; auto; discriminate);
            apply cbind_inv in D as [y [SY _]]; apply says_or_none_one in SY; exists (y :: xs); [apply titled_macro|apply titled_prod]; auto. }
        exists (x :: xs). split; [apply titled_macro; auto|]. split; [|intros D0; contradiction]. split; [contradiction|]. intros N. apply NoDup_remove_2 in N. exfalso. apply N. apply in_or_app. now left.
      * pose proof (proj2 (mem_false _ _) NI) as M; unfold add_rule, with_ in H; cbn [d_dupes d_names d_macros] in H; rewrite M in H. cbn [d_dupes d_names d_macros] in *. eapply GO; [reflexivity|exact H| |reflexivity].
        clear -ND NI; rewrite <- rev_involutive; apply NoDup_rev; rewrite rev_app_distr; simpl; constructor; [rewrite <- in_rev; auto|apply NoDup_rev; auto].
    + (* production *) apply cbind_inv in D as [x [SX D]]. inversion D; subst; clear D. apply says_or_none_one in SX.
      destruct (in_dec string_dec x (d_names d)) as [I|NI].
      * pose proof (proj2 (mem_true _ _) I) as M; unfold add_rule, with_ in H; cbn [d_dupes d_names d_macros] in H; rewrite M in H. pose proof (dupes_stay _ _ _ H) as DS. cbn [d_dupes] in DS. rewrite DD in DS. specialize (DS ltac:(discriminate)).
        assert (exists xs, titled evs xs) as [xs T].
        { clear -H. revert d' H. generalize (mkDefined (d_dupes d ++ [x]) (d_names d) (d_macros d)). induction evs as [|e evs IHe]; intros d0 d' H; [exists []; constructor|].
          cbn [steps] in H. destruct e as [k m|k m]; [|destruct (IHe _ _ H) as [xs T]; exists xs; apply titled_other; auto; discriminate].
          apply cbind_inv in H as [[s d1] [D H]]. destruct (IHe _ _ H) as [xs T]. destruct k; cbn [defining] in D; try (exists xs; apply titled_other; auto; discriminate);
            apply cbind_inv in D as [y [SY _]]; apply says_or_none_one in SY; exists (y :: xs); [apply titled_macro|apply titled_prod]; auto. }
        exists (x :: xs). split; [apply titled_prod; auto|]. split; [|intros D0; contradiction]. split; [contradiction|]. intros N. apply NoDup_remove_2 in N. exfalso. apply N. apply in_or_app. now left.
      * pose proof (proj2 (mem_false _ _) NI) as M; unfold add_rule, with_ in H; cbn [d_dupes d_names d_macros] in H; rewrite M in H. assert (ND1 : NoDup (d_names d ++ [x])).
        { clear -ND NI. rewrite <- rev_involutive. apply NoDup_rev. rewrite rev_app_distr. simpl. constructor; [rewrite <- in_rev; auto|apply NoDup_rev; auto]. }
        destruct (IH _ _ H DD ND1) as (xs & T & DU & REST). cbn [d_names d_macros] in *. exists (x :: xs). split; [apply titled_prod; auto|].
        rewrite <- app_assoc in *. split; auto. intros D0. destruct (REST D0) as (NM & L). split; [rewrite NM; reflexivity|].
        intros y m. rewrite L. unfold macro_in. assert (X : forall m', In (Enter KPragmaMacrodef m') (Enter KProd n :: evs) <-> In (Enter KPragmaMacrodef m') evs).
        { intros m'. simpl. split; [intros [E|J]; [discriminate|auto]|auto]. }
        split; intros [[J S]|[K NE]].
        -- left. rewrite X. auto.
        -- right. split; auto. intros (m' & J & S). apply NE. exists m'. rewrite X in J. auto.
        -- left. rewrite X in J. auto.
        -- right. split; auto. intros (m' & J & S). apply NE. exists m'. rewrite X. auto.
Qed.
Lemma find_defined : forall fuel n d, find_defined_rules fuel n = COk d ->
  exists xs, names n xs /\ (d_dupes d = [] <-> NoDup xs) /\
    (d_dupes d = [] -> d_names d = xs /\ forall x m, lookup x (d_macros d) = Some m <-> macro_called n x m).
Proof.
  intros fuel n d H. unfold find_defined_rules in H. apply cbind_inv in H as [[s d'] [W H]]. inversion H; subst; clear H.
  change (walk defining (fun _ _ st => COk (None, st)) fuel KGrammar n (mkDefined [] [] []) = COk (s, d)) in W.
  destruct (walk_steps defining is_definition) with (fuel := fuel) (k := KGrammar) (n := n) (st := mkDefined [] [] []) (s := s) (st' := d) as (_ & evs & T & S1); auto.
  { apply defining_stops. }
  { intros k m. destruct k; cbn; congruence. }
  destruct (steps_defining _ _ _ S1) as (xs & TI & DU & REST); [reflexivity|constructor|]. cbn [d_names d_macros app] in *.
  exists xs. split; [exists evs; auto|]. split; auto. intros D. destruct (REST D) as (NM & L). split; auto. intros x m. rewrite L. unfold macro_in, macro_called, enters. split.
  - intros [[I S]|[K _]]; [|discriminate]. split; auto. exists evs. auto.
  - intros [(evs' & T' & I) S]. left. rewrite (tour_det _ _ _ _ T _ T') in I. auto.
Qed.

(** ** One step of the validator *)
Lemma ident_of_one : forall t x, ident_of t x <-> exists named, one "named" t = Some named /\ string_of (one "IDENT" named) = COk x /\ x <> ""%string.
Proof.
  intros t x. split.
  - intros [child named more y L SX NE]. pose proof (one_labelled "named" child) as H. rewrite L in H. exists named. split; [destruct (one "named" child); cbn in H; congruence|]. split; auto.
    apply says_or_none_one. now left.
  - intros (named & O & SX & NE). pose proof (one_labelled "named" t) as H. rewrite O in H. destruct (labelled "named" t) as [|y l] eqn:L; cbn in H; inversion H; subst.
    apply says_or_none_one in SX. destruct SX as [SX|[_ SX]]; [|contradiction]. econstructor; eauto.
Qed.
Lemma ident_of_det : forall t x y, ident_of t x -> ident_of t y -> x = y.
Proof. intros t x y A B. apply ident_of_one in A as (n1 & O1 & S1 & _). apply ident_of_one in B as (n2 & O2 & S2 & _). congruence. Qed.
Lemma twice_cons : forall t ts, twice (t :: ts) <-> twice ts \/ exists x u, ident_of t x /\ In u ts /\ ident_of u x.
Proof.
  intros t ts. split.
  - intros (a & t0 & b & u & c & x & E & A & B). destruct a as [|a0 a]; cbn in E; inversion E; subst.
    + right. exists x, u. split; auto. split; auto. apply in_or_app. right. now left.
    + left. exists a, t0, b, u, c, x. auto.
  - intros [(a & t0 & b & u & c & x & E & A & B)|(x & u & A & I & B)].
    + exists (t :: a), t0, b, u, c, x. subst. auto.
    + apply in_split in I as (b & c & ->). exists [], t, b, u, c, x. auto.
Qed.
Lemma name_clashes_err : forall ts ns v v', name_clashes ts ns v = COk v' ->
  v_known v' = v_known v /\ forall e, In e (v_err v') <->
    In e (v_err v) \/ e = MultipleTermsWithSameName /\ (twice ts \/ exists t x, In t ts /\ ident_of t x /\ In x ns).
Proof.
  induction ts as [|t ts IH]; intros ns v v' H; cbn [name_clashes] in H.
  - inversion H; subst. split; auto. intros e. split; [auto|]. intros [I|[_ [(a & t0 & b & u & c & x & E & _)|(t0 & x & [] & _)]]]; auto. destruct a; discriminate.
  - assert (NONE : (forall x, ~ ident_of t x) -> name_clashes ts ns v = COk v' -> v_known v' = v_known v /\ forall e, In e (v_err v') <->
      In e (v_err v) \/ e = MultipleTermsWithSameName /\ (twice (t :: ts) \/ exists t' x, In t' (t :: ts) /\ ident_of t' x /\ In x ns)).
    { intros N H0. destruct (IH _ _ _ H0) as (K & L). split; auto. intros e. rewrite L, twice_cons. split.
      - intros [I|[-> [T|(t' & x & I & D & J)]]]; auto. right. split; auto. right. exists t', x. split; [now right|auto].
      - intros [I|[-> [[T|(x & u & D & _)]|(t' & x & [E|I] & D & J)]]]; auto; [destruct (N _ D)| |]; subst.
        + destruct (N _ D).
        + right. split; auto. right. eauto. }
    destruct (one "named" t) as [named|] eqn:O.
    + apply cbind_inv in H as [x [SX H]]. destruct (String.eqb_spec x "") as [->|NE].
      * apply NONE; auto. intros y D. apply ident_of_one in D as (n2 & O2 & S2 & N2). rewrite O2 in O. inversion O; subst. rewrite SX in S2. congruence.
      * assert (DX : ident_of t x) by (apply ident_of_one; eauto). destruct (IH _ _ _ H) as (K & L). split; [rewrite K; destruct (mem x ns); auto|].
        intros e. rewrite L, twice_cons.
        assert (R : In e (v_err (if mem x ns then report MultipleTermsWithSameName v else v)) <-> In e (v_err v) \/ e = MultipleTermsWithSameName /\ In x ns).
        { destruct (mem x ns) eqn:M.
          - apply mem_true in M. cbn [report v_err]. rewrite in_app_iff. cbn [In]. split; [intros [A|[A|[]]]; auto|intros [A|[A _]]; auto].
          - apply mem_false in M. split; [auto|intros [A|[_ A]]; auto; contradiction]. }
        rewrite R. split.
        -- intros [[I|[-> I]]|[-> [T|(t' & y & I & D & J)]]]; auto.
           ++ right. split; auto. right. exists t, x. split; [now left|auto].
           ++ right. split; auto. destruct (proj1 (with_In _ _ _) J) as [->|J'].
              ** left. right. eauto.
              ** right. exists t', y. split; [now right|auto].
        -- intros [I|[-> [[T|(y & u & D & I & D')]|(t' & y & [E|I] & D & J)]]]; auto.
           ++ right. split; auto. right. exists u, y. split; auto. split; auto. rewrite (ident_of_det _ _ _ DX D). apply with_In. auto.
           ++ subst. left. right. split; auto. rewrite (ident_of_det _ _ _ DX D). auto.
           ++ right. split; auto. right. exists t', y. split; auto. split; auto. apply with_In. auto.
    + apply NONE; auto. intros y D. apply ident_of_one in D as (n2 & O2 & _). congruence.
Qed.

Lemma taken_cons : forall known x xs, taken known (x :: xs) <-> In x known \/ taken (known ++ [x]) xs.
Proof.
  intros known x xs. split.
  - intros (a & y & b & E & I). destruct a as [|a0 a]; cbn in E; inversion E; subst; [left; rewrite app_nil_r in I; auto|].
    right. exists a, y, b. split; auto. rewrite <- app_assoc. auto.
  - intros [I|(a & y & b & -> & I)].
    + exists [], x, xs. rewrite app_nil_r. auto.
    + exists (x :: a), y, b. rewrite <- app_assoc in I. auto.
Qed.
Lemma taken_same : forall k k' xs, (forall x, In x k <-> In x k') -> taken k xs -> taken k' xs.
Proof. intros k k' xs H (a & x & b & -> & I). exists a, x, b. split; auto. rewrite in_app_iff in *. rewrite <- H. auto. Qed.
Lemma macro_args_err : forall ms v v', macro_args ms v = COk v' ->
  exists xs, Forall2 (fun m x => exists b, node_text m = COk b /\ x = sb b) ms xs /\
    forall e, In e (v_err v') <-> In e (v_err v) \/ e = NameClashesWithRule /\ taken (v_known v) xs.
Proof.
  induction ms as [|m ms IH]; intros v v' H; cbn [macro_args] in H.
  - inversion H; subst. exists []. split; [constructor|]. intros e. split; auto. intros [I|[_ (a & x & b & E & _)]]; auto. destruct a; discriminate.
  - apply cbind_inv in H as [x [SX H]]. unfold string_of in SX. apply cbind_inv in SX as [b [B SX]]. inversion SX; subst; clear SX.
    destruct (IH _ _ H) as (xs & F & L). exists (sb b :: xs). split; [constructor; eauto|]. intros e. rewrite L, taken_cons.
    destruct (mem (sb b) (v_known v)) eqn:M.
    + apply mem_true in M. cbn [report v_err v_known]. rewrite in_app_iff. cbn [In].
      split; [intros [[A|[A|[]]]|[A _]]; auto|]. intros [A|[A _]]; auto.
    + pose proof M as M'. apply mem_false in M. cbn [v_err v_known]. unfold with_. rewrite M'. split; [intros [A|[A T]]; auto|].
      intros [A|[A [T|T]]]; auto. contradiction.
Qed.

Lemma validator_step : forall E ms (M : string -> anode -> Prop) k n v s v', (forall x m, lookup x ms = Some m <-> M x m) ->
  validator_ops E ms k n v = COk (s, v') ->
  s = (if closed k n then Some NodeExiter else None) /\ v_known v' = v_known v /\
  forall e, In e (v_err v') <-> In e (v_err v) \/ fault E (v_known v) M k n e.
Proof.
  intros E ms M k n v s v' HM H. destruct k; cbn [validator_ops closed] in *;
    try (inversion H; subst; split; auto; split; auto; intros e; split; auto; intros [I|F]; auto; inversion F; fail).
  - (* atom *) unfold validate_atom in H. destruct (one "IDENT" n) as [i|] eqn:O.
    + apply cbind_inv in H as [x [SX H]]. inversion H; subst; clear H. assert (SY : says "IDENT" n x) by (apply says_one; eauto).
      split; auto. split; [destruct (String.eqb x "@"); auto; destruct (mem x (v_known v)); auto|]. intros e.
      assert (NI : labelled "IDENT" n <> []) by (rewrite none_one; congruence).
      destruct (String.eqb_spec x "@") as [->|NE].
      * split; auto. intros [I|F]; auto. inversion F; subst; [|contradiction].
        match goal with A : says "IDENT" n ?y, B : ?y <> _ |- _ => rewrite (says_det _ _ _ _ A SY) in B; contradiction end.
      * destruct (mem x (v_known v)) eqn:ME.
        -- apply mem_true in ME. split; auto. intros [I|F]; auto. inversion F; subst; [|contradiction].
           match goal with A : says "IDENT" n ?y, B : ~ In ?y _ |- _ => rewrite (says_det _ _ _ _ A SY) in B; contradiction end.
        -- apply mem_false in ME. cbn [report v_err]. rewrite in_app_iff. cbn [In]. split.
           ++ intros [I|[<-|[]]]; auto. right. econstructor; eauto.
           ++ intros [I|F]; auto. inversion F; subst; auto; contradiction.
    + assert (NI : labelled "IDENT" n = []) by (apply none_one; auto).
      assert (NS : forall y, ~ says "IDENT" n y) by (intros y SY; apply says_one in SY as (m & O' & _); congruence).
      destruct (one "RE" n) as [r|] eqn:R.
      * apply cbind_inv in H as [x [SX H]]. inversion H; subst; clear H. assert (SY : says "RE" n x) by (apply says_one; eauto).
        split; auto. split; [destruct (re_valid E (bs x)); auto|]. intros e. destruct (re_valid E (bs x)) eqn:V.
        -- split; auto. intros [I|F]; auto. inversion F; subst; [exfalso; eapply NS; eauto|].
           match goal with A : says "RE" n ?y, B : re_valid E (bs ?y) = false |- _ => rewrite (says_det _ _ _ _ A SY) in B; congruence end.
        -- cbn [report v_err]. rewrite in_app_iff. cbn [In]. split.
           ++ intros [I|[<-|[]]]; auto. right. eapply invalid_regex; eauto.
           ++ intros [I|F]; auto. inversion F; subst; auto. exfalso. eapply NS. eauto.
      * inversion H; subst. split; auto. split; auto. intros e. split; auto. intros [I|F]; auto. inversion F; subst; [exfalso; eapply NS; eauto|].
        match goal with A : says "RE" n ?y |- _ => apply says_one in A as (m & O' & _); congruence end.
  - (* macro call *) unfold validate_macro_call in H. apply cbind_inv in H as [x [SX H]]. inversion H; subst; clear H. apply says_or_none_one in SX.
    split; auto. split; [destruct (lookup x ms) as [m|]; auto; destruct (_ =? _); auto|]. intros e. destruct (lookup x ms) as [m|] eqn:L.
    + apply HM in L. destruct (Nat.eqb_spec (length (all "args" m)) (length (all "term" n))) as [EQ|NE].
      * split; auto. intros [I|F]; auto. inversion F; subst.
        -- match goal with A : says_or_none "name" n ?y, B : forall m, ~ M ?y m |- _ => rewrite (says_or_none_det _ _ _ _ A SX) in B; exfalso; eapply B; eauto end.
        -- match goal with A : says_or_none "name" n ?y, B : M ?y _ |- _ => rewrite (says_or_none_det _ _ _ _ A SX) in B; apply HM in B; apply HM in L; rewrite L in B; inversion B; subst end.
           rewrite !all_labelled in EQ. contradiction.
      * cbn [report v_err]. rewrite in_app_iff. cbn [In]. split.
        -- intros [I|[<-|[]]]; auto. right. rewrite !all_labelled in NE. eapply wrong_count; eauto.
        -- intros [I|F]; auto. inversion F; subst; auto.
           match goal with A : says_or_none "name" n ?y, B : forall m, ~ M ?y m |- _ => rewrite (says_or_none_det _ _ _ _ A SX) in B; exfalso; eapply B; eauto end.
    + cbn [report v_err]. rewrite in_app_iff. cbn [In]. split.
      * intros [I|[<-|[]]]; auto. right. eapply no_macro; eauto. intros m MM. apply HM in MM. congruence.
      * intros [I|F]; auto. inversion F; subst; auto.
        match goal with A : says_or_none "name" n ?y, B : M ?y _ |- _ => rewrite (says_or_none_det _ _ _ _ A SX) in B; apply HM in B; congruence end.
  - (* named *) unfold validate_named in H. destruct (one "IDENT" n) as [i|] eqn:O.
    + apply cbind_inv in H as [x [SX H]]. inversion H; subst; clear H. assert (SY : says "IDENT" n x) by (apply says_one; eauto).
      split; auto. split; [destruct (mem x (v_known v)); auto|]. intros e. destruct (mem x (v_known v)) eqn:ME.
      * apply mem_true in ME. cbn [report v_err]. rewrite in_app_iff. cbn [In]. split.
        -- intros [I|[<-|[]]]; auto. right. econstructor; eauto.
        -- intros [I|F]; auto. inversion F; subst; auto.
      * apply mem_false in ME. split; auto. intros [I|F]; auto. inversion F; subst.
        match goal with A : says "IDENT" n ?y, B : In ?y _ |- _ => rewrite (says_det _ _ _ _ A SY) in B; contradiction end.
    + inversion H; subst. split; auto. split; auto. intros e. split; auto. intros [I|F]; auto. inversion F; subst.
      match goal with A : says "IDENT" n ?y |- _ => apply says_one in A as (m & O' & _); congruence end.
  - (* macro definition *) unfold validate_macro in H. apply cbind_inv in H as [v1 [A H]]. inversion H; subst; clear H. split; auto. split; auto.
    apply macro_args_err in A as (xs & F2 & L). rewrite all_labelled in F2. cbn [v_err]. intros e. rewrite L. split.
    + intros [I|[-> T]]; auto. right. econstructor; eauto.
    + intros [I|F]; auto. inversion F; subst. right. split; auto.
      match goal with A : Forall2 _ _ ?ys, B : taken _ ?ys |- _ => replace xs with ys; auto; revert F2 A; clear; revert xs; generalize (labelled "args" n) as l; revert ys end.
      intros ys l xs. revert ys xs. induction l as [|m l IH]; intros ys xs F1 F2; inversion F1; inversion F2; subst; auto.
      f_equal; auto. destruct H1 as (b & B & ->). destruct H6 as (b' & B' & ->). congruence.
  - (* quantifier *) unfold validate_quant in H. apply cbind_inv in H as [c [C H]]. destruct (Z.eqb_spec c 1) as [->|NE].
    + apply cbind_inv in H as [mn [MN H]]. apply cbind_inv in H as [mx [MX H]]. inversion H; subst; clear H.
      split; auto. split; [destruct (_ && _)%bool; auto|]. intros e.
      destruct (negb (mn =? 0) && negb (mx =? 0) && (mx <? mn))%bool eqn:B.
      * apply andb_prop in B as [B B3]. apply andb_prop in B as [B1 B2]. apply Nat.ltb_lt in B3. apply negb_true_iff, Nat.eqb_neq in B2.
        cbn [report v_err]. rewrite in_app_iff. cbn [In]. split.
        -- intros [I|[<-|[]]]; auto. right. apply bounds with (mn := mn) (mx := mx); auto; try (apply says_number_bound; auto); lia.
        -- intros [I|F]; auto. inversion F; subst; auto.
      * split; auto. intros [I|F]; auto. inversion F; subst. exfalso.
        repeat match goal with A : says_number _ _ _ |- _ => apply says_number_bound in A end.
        assert (mn = mn0) by congruence. assert (mx = mx0) by congruence. subst.
        rewrite (proj2 (Nat.ltb_lt _ _)) in B by auto. destruct (Nat.eqb_spec mx0 0); [lia|]. destruct (Nat.eqb_spec mn0 0); [lia|]. discriminate.
    + inversion H; subst. split; auto. split; auto. intros e. split; auto. intros [I|F]; auto. inversion F; subst. exfalso.
      match goal with A : choice_of _ = COk 1%Z |- _ => rewrite C in A; inversion A; subst; contradiction end.
  - (* term *) unfold validate_term in H. rewrite all_labelled in H. destruct (labelled "grammar" n) as [|g l] eqn:G.
    + apply cbind_inv in H as [op [OP H]]. destruct (String.eqb_spec op "") as [->|NE].
      * apply cbind_inv in H as [v1 [A H]]. inversion H; subst; clear H. apply name_clashes_err in A as (K & L). rewrite all_labelled in L.
        split; auto. split; auto. intros e. rewrite L. split.
        -- intros [I|[-> [T|(t & x & _ & _ & [])]]]; auto. right. apply same_name; auto.
        -- intros [I|F]; auto. inversion F; subst. auto.
      * inversion H; subst. split; auto. split; auto. intros e. split; auto. intros [I|F]; auto. inversion F; subst. exfalso. congruence.
    + inversion H; subst. split; auto. split; auto. intros e. split; auto. intros [I|F]; auto. inversion F; subst. exfalso. congruence.
Qed.

Lemma validator_steps : forall E ms (M : string -> anode -> Prop) evs v v', (forall x m, lookup x ms = Some m <-> M x m) ->
  steps (validator_ops E ms) evs v = COk v' ->
  v_known v' = v_known v /\ forall e, In e (v_err v') <-> In e (v_err v) \/ exists k n, In (Enter k n) evs /\ fault E (v_known v) M k n e.
Proof.
  intros E ms M evs v v' HM. revert v. induction evs as [|[k n|k n] evs IH]; intros v H; cbn [steps] in H.
  - inversion H; subst. split; auto. intros e. split; auto. intros [I|(k & n & [] & _)]; auto.
  - apply cbind_inv in H as [[s v1] [A H]]. apply (validator_step _ _ M) in A as (_ & K1 & L1); auto. destruct (IH _ H) as (K2 & L2). split; [congruence|].
    intros e. rewrite L2, L1, K1. split.
    + intros [[I|F]|(k' & m & I & F)]; auto; right; [exists k, n; split; [now left|auto]|exists k', m; split; [now right|auto]].
    + intros [I|(k' & m & [EQ|I] & F)]; auto; [inversion EQ; subst; auto|]. right. eauto.
  - destruct (IH _ H) as (K & L). split; auto. intros e. rewrite L. split.
    + intros [I|(k' & m & I & F)]; auto. right. exists k', m. split; [now right|auto].
    + intros [I|(k' & m & [EQ|I] & F)]; auto; [discriminate|]. right. eauto.
Qed.
Lemma fault_macros : forall E known (M M' : string -> anode -> Prop) k n e, (forall x m, M x m <-> M' x m) -> fault E known M k n e -> fault E known M' k n e.
Proof.
  intros E known M M' k n e H F. destruct F; try (econstructor; eauto; fail).
  - eapply no_macro; eauto. intros m X. apply H in X. eapply H1; eauto.
  - eapply wrong_count; eauto. apply H. auto.
Qed.

(** ** Validation *)
Theorem names_det : forall n xs ys, names n xs -> names n ys -> xs = ys.
Proof.
  intros n xs ys (e1 & T1 & N1) (e2 & T2 & N2). pose proof (tour_det _ _ _ _ T1 _ T2). subst. clear -N1 N2.
  revert ys N2. induction N1 as [|m x evs xs S1 N1 IH|m x evs xs S1 N1 IH|e evs xs A B N1 IH]; intros ys N2; inversion N2; subst; auto;
    try (f_equal; auto; eapply says_or_none_det; eauto; fail);
    match goal with A : forall m, _ <> _ |- _ => destruct (A _ eq_refl) end.
Qed.
Theorem validate_reports : forall E rt fuel n es, validate E rt fuel n = COk es ->
  exists xs, names n xs /\
    (~ NoDup xs -> es = [DuplicatedRule]) /\
    (NoDup xs -> exists cyclic, check_for_recursion rt fuel n = COk cyclic /\
       forall e, In e es <-> (exists k m, enters closed n k m /\ fault E xs (macro_called n) k m e) \/ e = PossibleCycleDetected /\ cyclic = true).
Proof.
  intros E rt fuel n es H. unfold validate in H. apply cbind_inv in H as [d [D H]]. apply find_defined in D as (xs & N & DU & REST). exists xs. split; auto.
  destruct (d_dupes d) as [|y l] eqn:DD.
  - split; [intros ND; exfalso; apply ND, DU; auto|]. intros _. destruct (REST eq_refl) as (NM & L).
    apply cbind_inv in H as [v [V H]]. apply cbind_inv in H as [c [C H]]. inversion H; subst es; clear H. exists c. split; auto. intros e.
    unfold run_validator in V. apply cbind_inv in V as [[s v1] [W V]]. inversion V; subst v1; clear V.
    destruct (walk_steps (validator_ops E (d_macros d)) closed) with (fuel := fuel) (k := KGrammar) (n := n) (st := mkValidator (d_names d) []) (s := s) (st' := v) as (_ & evs & T & S1); auto.
    { intros k m st s0 st' A. apply (validator_step _ _ (fun x m => lookup x (d_macros d) = Some m)) in A as (A & _); auto. tauto. }
    { intros k m. destruct k; cbn; congruence. }
    apply (validator_steps _ _ (macro_called n)) in S1 as (_ & L1); auto. cbn [v_err v_known] in L1. rewrite in_app_iff, L1, NM. cbn [In].
    split.
    + intros [[[]|(k & m & I & F)]|I].
      * left. exists k, m. split; auto. exists evs. auto.
      * destruct c; [|contradiction]. destruct I as [<-|[]]. auto.
    + intros [(k & m & (evs' & T' & I) & F)|[-> ->]].
      * left. right. exists k, m. split; auto. rewrite (tour_det _ _ _ _ T _ T') in I. auto.
      * right. now left.
  - split; [intros _; inversion H; auto|]. intros ND. apply DU in ND. discriminate.
Qed.
