(** Escapes: the names of externals, and what an escape does to a parse. *)
From Verif Require Import Base Scanner ScannerProofs Syntax Engine Resolve Compile Parse FlowSpec FlowProofs Externals ScannerSpec EscapeSpec.
Local Open Scope list_scope.

(** * Names *)

Lemma plain_nil : plain [].
Proof. intros [|x a] b H; discriminate. Qed.

Lemma plain_snoc : forall p c, plain p -> (c <> ")"%char \/ forall q, p <> q ++ ["("%char]) -> plain (p ++ [c]).
Proof.
  intros p c P H a b Q. destruct b as [|y b' _] using rev_ind.
  - rewrite app_nil_r in Q. change (bs "()") with (["("%char] ++ [")"%char]) in Q. rewrite app_assoc in Q. apply app_inj_tail in Q. destruct Q as [Q1 Q2]. subst.
    destruct H as [H|H]; [congruence|]. apply (H a). reflexivity.
  - rewrite !app_assoc in Q. apply app_inj_tail in Q. destruct Q as [Q1 Q2]. apply (P a b'). rewrite <- app_assoc in Q1. exact Q1.
Qed.

(** The first part ends at the first "()", or there is none. *)
Lemma split_first : forall s part, plain part -> (forall q, part = q ++ ["("%char] -> forall s', s <> ")"%char :: s') ->
  (exists o r, part ++ s = o ++ bs "()" ++ r /\ plain o /\ split_parens part s = o :: split_parens [] r) \/
  (plain (part ++ s) /\ split_parens part s = [part ++ s]).
Proof.
  induction s as [|a s' IH]; intros part P N; [|destruct s' as [|b s]].
  - right. rewrite app_nil_r. split; auto.
  - right. split; [|reflexivity]. apply plain_snoc; auto. destruct (ascii_dec a ")") as [->|E]; [|auto].
    right. intros q ->. apply (N q eq_refl []). reflexivity.
  - change (split_parens part (a :: b :: s)) with
      (if (Ascii.eqb a "(" && Ascii.eqb b ")")%bool then part :: split_parens [] s else split_parens (part ++ [a]) (b :: s)).
    destruct (Ascii.eqb a "(" && Ascii.eqb b ")")%bool eqn:Q.
    + apply andb_true_iff in Q. destruct Q as [Q1 Q2]. apply Ascii.eqb_eq in Q1, Q2. subst.
      left. exists part, s. auto.
    + destruct (IH (part ++ [a])) as [(o & r & A & B & C)|(A & B)].
      * apply plain_snoc; auto. destruct (ascii_dec a ")") as [->|E]; [|auto].
        right. intros q ->. apply (N q eq_refl (b :: s)). reflexivity.
      * intros q H s' H2. apply app_inj_tail in H. destruct H as [-> ->]. inversion H2; subst. discriminate.
      * left. exists o, r. split; [|auto]. rewrite <- A, <- app_assoc. reflexivity.
      * right. rewrite <- app_assoc in A, B. auto.
Qed.

Lemma split_start : forall s,
  (exists o r, s = o ++ bs "()" ++ r /\ plain o /\ split_parens [] s = o :: split_parens [] r) \/
  (plain s /\ split_parens [] s = [s]).
Proof.
  intros s. apply (split_first s []); [apply plain_nil|]. intros [|x q] H; discriminate.
Qed.

Lemma first_unique : forall o r o' r', plain o -> plain o' -> o ++ bs "()" ++ r = o' ++ bs "()" ++ r' -> o = o' /\ r = r'.
Proof.
  induction o as [|a o IH]; intros r [|a' o'] r' P P' H; simpl in H.
  - inversion H; auto.
  - inversion H; subst. destruct o' as [|a'' o']; simpl in H2; inversion H2; subst. exfalso. apply (P' [] o'). reflexivity.
  - inversion H; subst. destruct o as [|b o]; simpl in H2; inversion H2; subst. exfalso. apply (P [] o). reflexivity.
  - inversion H; subst. destruct (IH r o' r') as [-> ->]; auto.
    + intros x y Q. apply (P (a' :: x) y). rewrite Q. reflexivity.
    + intros x y Q. apply (P' (a' :: x) y). rewrite Q. reflexivity.
Qed.

Lemma names_split : forall n o c, names_escape n o c <-> exists rest ps, bs n = "*"%char :: rest /\ split_parens [] rest = o :: c :: ps.
Proof.
  intros n o c. split.
  - intros (r & Q & P1 & P2 & R). exists (o ++ bs "()" ++ c ++ r).
    destruct (split_start (o ++ bs "()" ++ c ++ r)) as [(o' & r' & A & B & C)|(A & _)]; [|exfalso; apply (A o (c ++ r)); reflexivity].
    destruct (first_unique _ _ _ _ P1 B A) as [<- <-].
    destruct (split_start (c ++ r)) as [(c' & r'' & A2 & B2 & C2)|(A2 & C2)].
    + destruct R as [->|[r3 ->]].
      * rewrite app_nil_r in A2. exfalso. apply (P2 c' r''). exact A2.
      * destruct (first_unique _ _ _ _ P2 B2 A2) as [<- <-]. exists (split_parens [] r3). rewrite C, C2. auto.
    + destruct R as [->|[r3 ->]].
      * exists []. split; [exact Q|]. rewrite C, C2, app_nil_r. reflexivity.
      * exfalso. apply (A2 c r3). reflexivity.
  - intros (rest & ps & Q & H). destruct (split_start rest) as [(o' & r & A & B & C)|(A & C)]; rewrite C in H; [|discriminate].
    inversion H; subst o'. destruct (split_start r) as [(c' & r' & A2 & B2 & C2)|(A2 & C2)]; rewrite C2 in H2; inversion H2; subst.
    + exists (bs "()" ++ r'). split; auto. split; auto. split; auto. right. eauto.
    + exists []. rewrite app_nil_r. auto.
Qed.

Lemma find_none : forall E l e, (forall n fn, In (n, fn) l -> ~ starred n) -> find_escape E e l = COk e.
Proof.
  intros E. induction l as [|[n fn] l IH]; intros e H; [reflexivity|].
  change (find_escape E e ((n, fn) :: l)) with
    (match bs n with
     | c :: rest => if Ascii.eqb c "*" then
         match e, split_parens [] rest with
         | None, o :: cl :: _ => if (re_valid E (anchor ++ o) && re_valid E (anchor ++ cl))%bool
             then find_escape E (Some (mkEscape (anchor ++ o) (anchor ++ cl) fn)) l else CPanic
         | _, _ => CPanic end else find_escape E e l
     | [] => find_escape E e l end).
  assert (K : forall m fn0, In (m, fn0) l -> ~ starred m) by (intros; eapply H; right; eauto).
  destruct (bs n) as [|c rest] eqn:Q; auto. destruct (Ascii.eqb c "*") eqn:Q2; auto.
  apply Ascii.eqb_eq in Q2. subst. exfalso. apply (H n fn); [left; reflexivity|]. exists rest. auto.
Qed.

Lemma find_some : forall E l e0 e, find_escape E (Some e0) l = COk e -> e = Some e0 /\ forall n fn, In (n, fn) l -> ~ starred n.
Proof.
  intros E. induction l as [|[n fn] l IH]; intros e0 e H.
  - inversion H. split; [auto|intros ? ? []].
  - cbn [find_escape] in H. destruct (bs n) as [|c rest] eqn:Q.
    + destruct (IH _ _ H) as [-> K]. split; [auto|]. intros m f [I|I]; [|eauto]. inversion I; subst. intros [r R]. rewrite Q in R. discriminate.
    + destruct (Ascii.eqb c "*") eqn:Q2; [discriminate|]. destruct (IH _ _ H) as [-> K]. split; [auto|].
      intros m f [I|I]; [|eauto]. inversion I; subst. intros [r R]. rewrite Q in R. inversion R; subst. discriminate.
Qed.

Theorem find_escape_gives : forall E l esc, find_escape E None l = COk esc <-> gives E l esc.
Proof.
  intros E l esc. split.
  - revert esc. induction l as [|[n fn] l IH]; intros esc H.
    + inversion H. intros ? ? [].
    + cbn [find_escape] in H. destruct (bs n) as [|c rest] eqn:Q.
      * assert (NS : ~ starred n) by (intros [r R]; rewrite Q in R; discriminate). apply IH in H. destruct esc as [e|]; simpl in *.
        -- destruct H as (l1 & m & l2 & o & cl & A & B & C). exists ((n, fn) :: l1), m, l2, o, cl. rewrite A. split; auto. split; auto.
           intros m' f' [I|I]; [inversion I; subst; auto|eauto].
        -- intros m f [I|I]; [inversion I; subst; auto|eauto].
      * destruct (Ascii.eqb c "*") eqn:Q2.
        -- apply Ascii.eqb_eq in Q2. subst. destruct (split_parens [] rest) as [|o [|cl ps]] eqn:SP; try discriminate.
           destruct (re_valid E (anchor ++ o) && re_valid E (anchor ++ cl))%bool eqn:V; [|discriminate].
           apply andb_true_iff in V. destruct V as [V1 V2]. apply find_some in H. destruct H as [-> K].
           exists [], n, l, o, cl. split; [reflexivity|]. split; [exact K|]. split; [apply names_split; eauto|]. auto.
        -- assert (NS : ~ starred n) by (intros [r R]; rewrite Q in R; inversion R; subst; discriminate). apply IH in H. destruct esc as [e|]; simpl in *.
           ++ destruct H as (l1 & m & l2 & o & cl & A & B & C). exists ((n, fn) :: l1), m, l2, o, cl. rewrite A. split; auto. split; auto.
              intros m' f' [I|I]; [inversion I; subst; auto|eauto].
           ++ intros m f [I|I]; [inversion I; subst; auto|eauto].
  - destruct esc as [e|]; cbn [gives]; [|apply find_none].
    intros (l1 & n & l2 & o & cl & -> & B & C & V1 & V2 & O1 & O2).
    assert (K : find_escape E None ((n, esc_fn e) :: l2) = COk (Some e)).
    { apply names_split in C. destruct C as (rest & ps & Q & SP). cbn [find_escape]. rewrite Q, Ascii.eqb_refl, SP, V1, V2. cbn [andb].
      rewrite <- O1, <- O2. destruct e as [eo ec ef]; simpl. apply find_none. intros. eapply B. apply in_or_app. eauto. }
    assert (B1 : forall m fn, In (m, fn) l1 -> ~ starred m) by (intros; eapply B; apply in_or_app; eauto). clear B.
    induction l1 as [|[m fn] l1 IH]; [exact K|]. cbn [app find_escape].
    assert (NS : ~ starred m) by (apply (B1 m fn); left; reflexivity).
    assert (IH' := IH (fun m' f' I => B1 m' f' (or_intror I))).
    destruct (bs m) as [|c rest] eqn:Q; auto. destruct (Ascii.eqb c "*") eqn:Q2; auto.
    apply Ascii.eqb_eq in Q2. subst. exfalso. apply NS. exists rest. auto.
Qed.

Lemma find_escape_total : forall E l e, find_escape E e l <> CDiv.
Proof.
  intros E. induction l as [|[n fn] l IH]; intros e; [discriminate|]. cbn [find_escape].
  destruct (bs n) as [|c rest]; auto. destruct (Ascii.eqb c "*"); auto. destruct e; [discriminate|].
  destruct (split_parens [] rest) as [|o [|cl ps]]; try discriminate. destruct (_ && _)%bool; [auto|discriminate].
Qed.

(** The order in which the map is gone through does not matter. *)
Lemma gives_perm : forall E l l' esc, Permutation l l' -> gives E l esc -> gives E l' esc.
Proof.
  intros E l l' [e|] P; simpl.
  - intros (l1 & n & l2 & o & cl & -> & B & C). assert (I : In (n, esc_fn e) l').
    { eapply Permutation_in; [exact P|]. apply in_or_app. right. left. reflexivity. }
    apply in_split in I. destruct I as (m1 & m2 & ->). exists m1, n, m2, o, cl. split; auto. split; auto.
    intros m fn I. apply (B m fn). eapply Permutation_in; [|exact I]. apply Permutation_sym. eapply Permutation_app_inv. exact P.
  - intros H n fn I. apply (H n fn). eapply Permutation_in; [|exact I]. apply Permutation_sym. exact P.
Qed.
Lemma find_escape_perm : forall E l l', Permutation l l' -> find_escape E None l = find_escape E None l'.
Proof.
  intros E l l' P. destruct (find_escape E None l) as [x| |] eqn:Q.
  - apply find_escape_gives in Q. symmetry. apply find_escape_gives. eapply gives_perm; eauto.
  - destruct (find_escape E None l') as [x| |] eqn:Q'; auto.
    + apply find_escape_gives in Q'. apply (gives_perm _ _ l) in Q'; [|apply Permutation_sym; exact P]. apply find_escape_gives in Q'. congruence.
    + exfalso. eapply find_escape_total; eauto.
  - exfalso. eapply find_escape_total; eauto.
Qed.

(** * Parsing *)

Local Open Scope Z_scope.

Lemma in_range_shows : forall s, in_range s -> exists t, shows s t /\ sslice s = Some t.
Proof.
  intros s (o & i & n & W). exists (firstn n (skipn i (origin o))). split; [exact (window_string _ _ _ _ W)|exact (window_slice _ _ _ _ W)].
Qed.
Lemma shows_slice : forall s t, in_range s -> shows s t -> sslice s = Some t.
Proof. intros s t R H. destruct (in_range_shows s R) as (t' & H1 & H2). unfold shows in *. congruence. Qed.

Lemma eat_takes : forall E pat s m caps n rest, engine_ok E -> in_range s -> eat_regexp E pat s 0 = EatOk m caps n rest -> takes E pat s rest.
Proof.
  intros E pat s m caps n rest OK R H. destruct (in_range_shows s R) as (t & T & SL). destruct R as (o & i & l & W). unfold eat_regexp in H. rewrite SL in H.
  destruct (re_find E pat t) as [[|[a b] gs]|] eqn:F; try discriminate. destruct (a =? 0) eqn:A; simpl in H; [|discriminate].
  apply Z.eqb_eq in A. subst a. inversion H; subst. destruct (ok_shape E OK _ _ _ F) as (a' & b' & gs' & Q & L1 & L2 & L3 & _). inversion Q; subst a' b' gs'.
  unfold blen in L3. rewrite (window_length _ _ _ _ _ W SL) in L3.
  exists o, i, l, t, (Z.to_nat b), gs. rewrite Z2Nat.id by lia. split; auto. split; auto. split; auto. split; [lia|]. apply skip_window; auto.
Qed.

Lemma eat_refuses : forall E pat s, in_range s -> eat_regexp E pat s 0 = EatNo -> refuses E pat s.
Proof.
  intros E pat s R H. destruct (in_range_shows s R) as (t & T & SL). exists t. split; auto. unfold eat_regexp in H. rewrite SL in H.
  destruct (re_find E pat t) as [[|[a b] gs]|]; try discriminate; auto. destruct (a =? 0); discriminate.
Qed.

Lemma takes_eat : forall E pat s s', takes E pat s s' -> exists m caps n, eat_regexp E pat s 0 = EatOk m caps n s'.
Proof.
  intros E pat s s' (o & i & l & t & j & gs & W & T & F & L & W').
  assert (R : in_range s) by (do 3 eexists; eauto). unfold eat_regexp. rewrite (shows_slice _ _ R T), F. simpl.
  do 3 eexists. f_equal. pose proof (skip_window s o i l (Z.of_nat j) W ltac:(lia) ltac:(lia)) as W2. rewrite Nat2Z.id in W2.
  destruct W2 as (A & B & C & _), W' as (A' & B' & C' & _). destruct (skip s (Z.of_nat j)), s'; simpl in *. congruence.
Qed.

Lemma refuses_eat : forall E pat s, in_range s -> refuses E pat s -> eat_regexp E pat s 0 = EatNo.
Proof. intros E pat s R (t & T & F). unfold eat_regexp. rewrite (shows_slice _ _ R T), F. reflexivity. Qed.

Lemma takes_forward : forall E pat s s', takes E pat s s' -> forward s s'.
Proof. intros E pat s s' (o & i & l & t & j & gs & W & T & F & L & W'). exists o, i, l, j. auto. Qed.

Lemma with_escape_out : forall c e sc s k cont r s' k', tame c -> cf_esc c = Some e -> in_range s -> opens (cf_eng c) e s ->
  with_escape c sc s k cont = (r, s', k') -> r <> RPanic -> escaped (cf_eng c) e sc s r s' /\ k' = k.
Proof.
  intros c e sc s k cont r s' k' (OK & _ & X) Q R [s1 O] H N. unfold with_escape in H. rewrite Q in H.
  destruct (takes_eat _ _ _ _ O) as (m & caps & n & EQ). rewrite EQ in H.
  pose proof (forward_range _ _ (takes_forward _ _ _ _ O)) as R1. destruct (X e Q sc s1 R1) as [F1 F2].
  assert (CL : forall te s2, reads_as (esc_fn e) sc s1 te s2 -> in_range s2 ->
    match eat_regexp (cf_eng c) (esc_close e) s2 0 with
    | EatPanic => (RPanic, s2, k) | EatNo => (RErr EOther, s2, k) | EatOk _ _ _ inp3 => (ROk te, inp3, k) end = (r, s', k') ->
    escaped (cf_eng c) e sc s r s' /\ k' = k).
  { intros te s2 RD R2 H2. destruct (eat_regexp (cf_eng c) (esc_close e) s2 0) as [| |m' c' n' s3] eqn:EC; inversion H2; subst; [congruence| |].
    - split; auto. eapply esc_unclosed; eauto. apply eat_refuses; auto.
    - split; auto. eapply esc_read; eauto. eapply eat_takes; eauto. }
  destruct (esc_fn e sc s1) as [s2 [te|err]] eqn:FN; simpl in *.
  - apply (CL te s2); [left; auto|apply (forward_range _ _ F1)|exact H].
  - destruct err; try (inversion H; subst; split; auto; eapply esc_error; eauto; intros; discriminate).
    apply (CL t residue); [right; eauto|eapply forward_range; eauto|exact H].
Qed.

Lemma escaped_out : forall c e sc s k cont r s', tame c -> cf_esc c = Some e -> in_range s -> escaped (cf_eng c) e sc s r s' ->
  with_escape c sc s k cont = (r, s', k).
Proof.
  intros c e sc s k cont r s' (OK & _ & X) Q R H. unfold with_escape. rewrite Q.
  assert (CL : forall s1 te s2, takes (cf_eng c) (esc_open e) s s1 -> reads_as (esc_fn e) sc s1 te s2 -> in_range s2 /\
    match esc_fn e sc s1 with
    | (s2', XOk t) => Some (t, s2') | (_, XErr (EUnconsumed rest t)) => Some (t, rest) | _ => None end = Some (te, s2)).
  { intros s1 te s2 T [RD|[s0 RD]]; pose proof (forward_range _ _ (takes_forward _ _ _ _ T)) as R1; destruct (X e Q sc s1 R1) as [F1 F2]; rewrite RD in *; simpl in *.
    - split; [apply (forward_range _ _ F1)|reflexivity].
    - split; [eapply forward_range; eauto|reflexivity]. }
  destruct H as [s1 t s2 s3 T1 RD T2|s1 t s2 T1 RD T2|s1 s2 err T1 RD NE]; destruct (takes_eat _ _ _ _ T1) as (m & caps & n & ->).
  - destruct (CL _ _ _ T1 RD) as [R2 K]. destruct (takes_eat _ _ _ _ T2) as (m' & caps' & n' & EC).
    destruct (esc_fn e sc s1) as [s2' [te|[]]]; inversion K; subst; rewrite EC; reflexivity.
  - destruct (CL _ _ _ T1 RD) as [R2 K]. pose proof (refuses_eat _ _ _ R2 T2) as EC.
    destruct (esc_fn e sc s1) as [s2' [te|[]]]; inversion K; subst; rewrite EC; reflexivity.
  - rewrite RD. destruct err; auto. exfalso. eapply NE. reflexivity.
Qed.

(** Where the opening pattern matches, any answer is that of the escape. *)
Theorem escape_takes_over : forall c e, tame c -> cf_esc c = Some e -> forall f env p sc s k r s' k', in_range s -> opens (cf_eng c) e s ->
  parse c f env p sc s k = (r, s', k') -> r <> RPanic -> r <> RFuel -> escaped (cf_eng c) e sc s r s' /\ k' = k.
Proof.
  intros c e T Q. induction f as [|f IH]; intros env p sc s k r s' k' R O H N1 N2; cbn [parse] in H; [inversion H; congruence|].
  destruct p; try (eapply with_escape_out; eassumption); try (eapply IH; eassumption).
  - inversion H; congruence.
  - destruct (resolve_link env t) as [[q env']|]; [eapply IH; eassumption|inversion H; congruence].
Qed.

(** The parsers that look for the escape themselves: all but references and wrappers. *)
Theorem escape_answers : forall c e, tame c -> cf_esc c = Some e -> forall f env p sc s k r s', in_range s ->
  escaped (cf_eng c) e sc s r s' ->
  match p with PRule _ _ | PLink _ | PScoped _ _ | PCut _ => True | _ => parse c (S f) env p sc s k = (r, s', k) end.
Proof.
  intros c e T Q f env p sc s k r s' R X. destruct p; try exact Logic.I; cbn [parse]; apply escaped_out with e; assumption.
Qed.

(** * Nothing to escape *)

Definition same_run (P : scanner -> Prop) (run1 run2 : parser -> scope -> scanner -> nat -> out) : Prop :=
  forall p sc s k, P s -> run1 p sc s k = run2 p sc s k.

Section Same.
  Variable P : scanner -> Prop.
  Variables run1 run2 : parser -> scope -> scanner -> nat -> out.
  Hypothesis SAME : same_run P run1 run2.
  Hypothesis next_ok : forall p sc s k r s' k', P s -> run1 p sc s k = (r, s', k') -> r <> RPanic -> r <> RFuel -> P s'.

  Lemma seq_same : forall c c' iscut rule, cf_rnd c = cf_rnd c' -> forall ps ids sc s k acc, P s ->
    seq_loop c run1 iscut rule ids ps sc s k acc = seq_loop c' run2 iscut rule ids ps sc s k acc.
  Proof.
    intros c c' iscut rule RN. induction ps as [|p ps IH]; intros ids sc s k acc H; simpl; auto.
    rewrite <- (SAME p sc s k H). destruct (run1 p sc s k) as [[[v|e| |] s'] k'] eqn:Q; auto.
    unfold replace_cut. rewrite RN.
    assert (P s') by (eapply next_ok; eauto; discriminate).
    destruct (iscut p); [destruct (cp_valid (scut sc) || true)%bool|]; apply IH; auto.
  Qed.

  Lemma quant_same : forall rule mn mx p sc pc mc fuel s k acc, P s ->
    quant_loop run1 fuel rule mn mx p sc pc mc s k acc = quant_loop run2 fuel rule mn mx p sc pc mc s k acc.
  Proof.
    intros rule mn mx p sc pc mc. induction fuel as [|f IH]; intros s k acc H; simpl; auto.
    destruct (_ || _)%bool; auto. rewrite <- (SAME p sc s k H). destruct (run1 p sc s k) as [[[v|e| |] s'] k'] eqn:Q; auto.
    apply IH. eapply next_ok; eauto; discriminate.
  Qed.

  Lemma oneof_same : forall rule sc pc mc ps i s fur k, P s ->
    oneof_loop run1 rule i ps sc pc mc s fur k = oneof_loop run2 rule i ps sc pc mc s fur k.
  Proof.
    intros rule sc pc mc. induction ps as [|p ps IH]; intros i s fur k H; simpl; auto.
    rewrite <- (SAME p sc s k H). destruct (run1 p sc s k) as [[[v|e| |] s'] k'] eqn:Q; auto.
    destruct (not_my_fatal e mc); auto.
  Qed.
End Same.

Lemma forward_next : forall s0 run, run_fwd run -> forall p sc s k r s' k', forward s0 s -> run p sc s k = (r, s', k') -> r <> RPanic -> r <> RFuel -> forward s0 s'.
Proof.
  intros s0 run FWD p sc s k r s' k' H Q N1 N2. pose proof (FWD p sc s k (forward_range _ _ H)) as F. rewrite Q in F.
  destruct r; simpl in F; try congruence; eapply forward_trans; eauto.
Qed.

Theorem parse_unescaped : forall c e s0, tame c -> cf_esc c = Some e -> never_opens (cf_eng c) e s0 ->
  forall f env p sc s k, forward s0 s -> parse c f env p sc s k = parse (unescaped c) f env p sc s k.
Proof.
  intros c e s0 T Q N. induction f as [|f IH]; intros env p sc s k F; [reflexivity|].
  assert (RF : run_fwd (parse c f env)) by (apply parse_forward; auto).
  assert (ES : forall cont cont', cont tt = cont' tt -> with_escape c sc s k cont = with_escape (unescaped c) sc s k cont').
  { intros cont cont' K. unfold with_escape. rewrite Q. rewrite (refuses_eat _ _ _ (forward_range _ _ F) (N s F)). exact K. }
  assert (SM : same_run (forward s0) (parse c f env) (parse (unescaped c) f env)) by (intros p' sc' s' k' H; apply IH; auto).
  destruct p; cbn [parse]; try reflexivity; try (apply ES; cbv beta).
  - destruct (resolve_link env t) as [[q env']|]; auto.
  - reflexivity.
  - reflexivity.
  - apply seq_same with (P := forward s0); eauto using forward_next.
  - rewrite (IH env p sc s k F). reflexivity.
  - rewrite (IH env p sc s k F). reflexivity.
  - unfold replace_cut, unescaped. cbn [cf_rnd]. destruct (_ || _)%bool; apply quant_same with (P := forward s0); eauto using forward_next.
  - unfold replace_cut, unescaped. cbn [cf_rnd]. destruct (_ || _)%bool; apply oneof_same with (P := forward s0); auto.
  - cbn [cf_eng unescaped]. destruct (lookup ident (svals sc)) as [x|].
    + destruct (term_from_ref_val x) as [t|]; auto. destruct (term_parser (cf_eng c) t None ident) as [q| |]; auto. rewrite (IH [] q sc s k F). reflexivity.
    + destruct default as [b|]; auto. destruct (term_parser (cf_eng c) (TS b) None ident) as [q| |]; auto. rewrite (IH [] q sc s k F). reflexivity.
  - reflexivity.
  - apply IH; auto.
  - apply IH; auto.
Qed.

Lemma parse_rule_unescaped : forall c e f ps r s, tame c -> cf_esc c = Some e -> in_range s -> never_opens (cf_eng c) e s ->
  parse_rule c f ps r s = parse_rule (unescaped c) f ps r s.
Proof.
  intros c e f ps r s T Q R N. unfold parse_rule. destruct (lookup r (p_rules ps)) as [p|]; auto.
  rewrite (parse_unescaped c e s T Q N); auto. apply forward_refl; auto.
Qed.

Lemma escape_whole_rule : forall c e f ps rule s r s', tame c -> cf_esc c = Some e -> in_range s -> opens (cf_eng c) e s ->
  parse_rule c f ps rule s = (r, s') -> r <> RPanic -> r <> RFuel ->
  match r with
  | ROk t => escaped (cf_eng c) e empty_scope s (ROk t) s' /\ shows s' []
  | RErr (EUnconsumed rest t) => rest = s' /\ ~ shows s' [] /\ escaped (cf_eng c) e empty_scope s (ROk t) s'
  | _ => escaped (cf_eng c) e empty_scope s r s'
  end.
Proof.
  intros c e f ps rule s r s' T Q R O H N1 N2. unfold parse_rule in H. destruct (lookup rule (p_rules ps)) as [p|]; [|inversion H; congruence].
  destruct (parse c f [p_rules ps] p empty_scope s 0) as [[r1 s1] k1] eqn:PQ.
  destruct r1 as [v|er| |]; try (inversion H; congruence).
  - destruct (escape_takes_over c e T Q _ _ _ _ _ _ _ _ _ R O PQ) as [X _]; try discriminate.
    destruct (sstring s1) as [[|b l]|] eqn:SS; inversion H; subst; try congruence.
    + auto.
    + split; auto. split; auto. unfold shows. congruence.
  - destruct (escape_takes_over c e T Q _ _ _ _ _ _ _ _ _ R O PQ) as [X _]; try discriminate.
    inversion H; subst. destruct er; auto. inversion X; subst. exfalso.
    match goal with NE : forall r t, _ <> _ |- _ => exact (NE _ _ eq_refl) end.
Qed.

(** * The order of the externals *)

Lemma parse_same_externals : forall E x x' esc rnd, (forall n, lookup n x = lookup n x') -> forall f env p sc s k,
  parse (mkConfig E x esc rnd) f env p sc s k = parse (mkConfig E x' esc rnd) f env p sc s k.
Proof.
  intros E x x' esc rnd L. induction f as [|f IH]; intros env p sc s k; [reflexivity|].
  assert (ES : forall cont cont', cont tt = cont' tt -> with_escape (mkConfig E x esc rnd) sc s k cont = with_escape (mkConfig E x' esc rnd) sc s k cont').
  { intros cont cont' K. unfold with_escape. cbn [cf_esc cf_eng]. destruct esc as [e|]; auto. destruct (eat_regexp E (esc_open e) s 0); auto. }
  assert (SM : same_run (fun _ => True) (parse (mkConfig E x esc rnd) f env) (parse (mkConfig E x' esc rnd) f env)) by (intros p' sc' s' k' H; apply IH).
  destruct p; cbn [parse]; try reflexivity; try (apply ES; cbv beta).
  - destruct (resolve_link env t) as [[q env']|]; auto.
  - apply seq_same with (P := fun _ => True); auto.
  - rewrite (IH env p sc s k). reflexivity.
  - rewrite (IH env p sc s k). reflexivity.
  - unfold replace_cut. cbn [cf_rnd]. destruct (_ || _)%bool; apply quant_same with (P := fun _ => True); auto.
  - unfold replace_cut. cbn [cf_rnd]. destruct (_ || _)%bool; apply oneof_same with (P := fun _ => True); auto.
  - cbn [cf_eng]. destruct (lookup ident (svals sc)) as [v|].
    + destruct (term_from_ref_val v) as [t|]; auto. destruct (term_parser E t None ident) as [q| |]; auto. rewrite (IH [] q sc s k). reflexivity.
    + destruct default as [b|]; auto. destruct (term_parser E (TS b) None ident) as [q| |]; auto. rewrite (IH [] q sc s k). reflexivity.
  - cbn [cf_ext]. rewrite L. reflexivity.
  - apply IH.
  - apply IH.
Qed.

Lemma parse_with_externals_order : forall E rnd x x' f ps r s, NoDup (keys x) -> Permutation x x' ->
  parse_with_externals E rnd x f ps r s = parse_with_externals E rnd x' f ps r s.
Proof.
  intros E rnd x x' f ps r s ND P. unfold parse_with_externals. rewrite (find_escape_perm E x x' P).
  destruct (find_escape E None x') as [esc| |]; auto. unfold parse_rule. destruct (lookup r (p_rules ps)) as [p|]; auto.
  rewrite (parse_same_externals E x x' esc rnd); auto. intros n. apply lookup_perm; auto.
Qed.
Lemma parse_with_externals_gives : forall E rnd x esc f ps r s, gives E x esc ->
  parse_with_externals E rnd x f ps r s = parse_rule (mkConfig E x esc rnd) f ps r s.
Proof. intros E rnd x esc f ps r s G. unfold parse_with_externals. apply find_escape_gives in G. rewrite G. reflexivity. Qed.
Lemma parse_with_externals_panics : forall E rnd x f ps r s, (forall esc, ~ gives E x esc) -> parse_with_externals E rnd x f ps r s = (RPanic, s).
Proof.
  intros E rnd x f ps r s N. unfold parse_with_externals. destruct (find_escape E None x) as [esc| |] eqn:Q; auto.
  - exfalso. apply (N esc). apply find_escape_gives. exact Q.
  - exfalso. eapply find_escape_total; eauto.
Qed.
