(** Parsing terminates on well-founded grammars. *)
From Verif Require Import Base Scanner ScannerSpec ScannerProofs Syntax Engine Resolve Compile Parse
  PegSpec FlowSpec WfSpec CompileProofs TopProofs PegProofs FuelProofs FlowProofs.

(** * The same conditions on compiled parsers *)

Definition biting (E : engine) (re : bytes) : Prop :=
  forall t a b gs, re_find E re t = Some ((a, b) :: gs) -> (0 < b)%Z.

Inductive peats (E : engine) : list ranking -> parser -> Prop :=
| pe_prule : forall R n r, peats E R (PRule n r)
| pe_link : forall R r k, info R r = Some (k, true) -> peats E R (PLink r)
| pe_s : forall R r x re, biting E re -> peats E R (PS r x re)
| pe_re : forall R r x re, biting E re -> peats E R (PRE r x re)
| pe_seq : forall R r ids ps, Exists (peats E R) ps -> peats E R (PSeq r ids ps)
| pe_oneof : forall R r ps, Forall (peats E R) ps -> peats E R (POneof r ps)
| pe_delim : forall R r a cs ce p, peats E R p -> peats E R (PDelim r a cs ce p)
| pe_quant : forall R r mn mx p, 0 < mn -> peats E R p -> peats E R (PQuant r mn mx p)
| pe_cut : forall R p, peats E R p -> peats E R (PCut p)
| pe_scoped : forall R rules p m, ptable E (m :: R) rules m -> peats E (m :: R) p -> peats E R (PScoped rules p)
with psafe (E : engine) : list ranking -> option nat -> parser -> Prop :=
| ps_prule : forall R b n r, psafe E R b (PRule n r)
| ps_link : forall R b r k e, info R r = Some (k, e) -> below k b -> psafe E R b (PLink r)
| ps_s : forall R b r x re, psafe E R b (PS r x re)
| ps_re : forall R b r x re, psafe E R b (PRE r x re)
| ps_ref : forall R b i d, psafe E R b (PREF i d)
| ps_ext : forall R b s, psafe E R b (PExt s)
| ps_seq : forall R b r ids ps, psafe_all E R b ps -> psafe E R b (PSeq r ids ps)
| ps_oneof : forall R b r ps, Forall (psafe E R b) ps -> psafe E R b (POneof r ps)
| ps_delim : forall R b r a cs ce p, psafe E R b p -> psafe E R b (PDelim r a cs ce p)
| ps_look : forall R b r p, psafe E R b p -> psafe E R b (PLook r p)
| ps_quant : forall R b r mn mx p, psafe E R b p -> (mx = 0 -> peats E R p) -> psafe E R b (PQuant r mn mx p)
| ps_cut : forall R b p, psafe E R b p -> psafe E R b (PCut p)
| ps_scoped : forall R b rules p m, ptable E (m :: R) rules m -> psafe E (m :: R) b p -> psafe E R b (PScoped rules p)
with psafe_all (E : engine) : list ranking -> option nat -> list parser -> Prop :=
| psa_nil : forall R b, psafe_all E R b []
| psa_eaten : forall R b p ps, psafe E R b p -> peats E R p -> psafe_all E R None ps -> psafe_all E R b (p :: ps)
| psa_cons : forall R b p ps, psafe E R b p -> psafe_all E R b ps -> psafe_all E R b (p :: ps)
with ptable (E : engine) : list ranking -> list (string * parser) -> ranking -> Prop :=
| ptab : forall R rules m,
    (forall r, lookup r rules = None <-> lookup r m = None) ->
    (forall r q k e, lookup r rules = Some q -> lookup r m = Some (k, e) -> psafe E R (Some k) q) ->
    (forall r q k, lookup r rules = Some q -> lookup r m = Some (k, true) -> peats E R q) ->
    ptable E R rules m.

Inductive env_safe (E : engine) : env -> list ranking -> Prop :=
| es_nil : env_safe E [] []
| es_cons : forall rules e m R, env_safe E e R -> ptable E (m :: R) rules m -> env_safe E (rules :: e) (m :: R).

(** Raising the bound. *)
Definition le_bound (b b' : option nat) : Prop :=
  match b, b' with _, None => True | Some n, Some n' => n <= n' | None, Some _ => False end.
Lemma below_le : forall k b b', below k b -> le_bound b b' -> below k b'.
Proof. intros k [n|] [n'|]; simpl; intros; auto; try lia; contradiction. Qed.
Lemma le_bound_refl : forall b, le_bound b b.
Proof. intros [n|]; simpl; auto. Qed.

Lemma psafe_all_mono' : forall E ps, Forall (fun p => forall R b b', psafe E R b p -> le_bound b b' -> psafe E R b' p) ps ->
  forall R b b', psafe_all E R b ps -> le_bound b b' -> psafe_all E R b' ps.
Proof.
  intros E. induction 1 as [|p ps P F IH]; intros R b b' S L; [constructor|].
  inversion S; subst; [apply psa_eaten|apply psa_cons]; eauto.
Qed.
Lemma psafe_mono : forall E p R b b', psafe E R b p -> le_bound b b' -> psafe E R b' p.
Proof.
  intros E. induction p using parser_ind'; intros R b b' S L; inversion S; subst; try (constructor; eauto; fail).
  - econstructor; eauto using below_le.
  - constructor. eapply psafe_all_mono'; eauto.
  - constructor. match goal with F1 : Forall _ ps, F2 : Forall _ ps |- _ =>
      rewrite Forall_forall in *; intros x I; eapply F1; eauto end.
  - econstructor; eauto.
Qed.
Lemma psafe_all_mono : forall E ps R b b', psafe_all E R b ps -> le_bound b b' -> psafe_all E R b' ps.
Proof. intros E ps. apply psafe_all_mono'. apply Forall_forall. intros p _. apply psafe_mono. Qed.

Lemma resolve_link_safe : forall E e R r, env_safe E e R ->
  match resolve_link e r with
  | Some (q, e') => exists R' k ea, info R r = Some (k, ea) /\ env_safe E e' R' /\ psafe E R' (Some k) q /\ (ea = true -> peats E R' q)
  | None => info R r = None
  end.
Proof.
  intros E e R r ES. induction ES as [|rules e m R ES IH T]; simpl; auto.
  inversion T as [? ? ? K S A]; subst.
  destruct (lookup r rules) as [q|] eqn:L.
  - destruct (lookup r m) as [[k ea]|] eqn:M.
    + exists (m :: R), k, ea. split; auto. split; [constructor; auto|]. split; [eapply S; eauto|]. intros ->. eapply A; eauto.
    + apply K in M. congruence.
  - apply K in L. rewrite L. auto.
Qed.

(** * Lengths *)

Definition len (s : scanner) (n : nat) : Prop := exists o i, window s o i n.
Lemma len_fun : forall s n n', len s n -> len s n' -> n = n'.
Proof. intros s n n' (o & i & W) (o' & i' & W'). destruct (window_fun _ _ _ _ _ _ _ W W') as (_ & _ & H); auto. Qed.
Lemma len_range : forall s n, len s n -> in_range s.
Proof. intros s n (o & i & W). do 3 eexists. eauto. Qed.
Lemma forward_len : forall s s' n, forward s s' -> len s n -> exists n', len s' n' /\ n' <= n.
Proof.
  intros s s' n (o & i & m & j & W & L & W') LN. assert (m = n) by (eapply len_fun; eauto; do 2 eexists; eauto). subst.
  exists (n - j). split; [do 2 eexists; eauto|lia].
Qed.

(** * Eating parsers shorten the input *)

Section Halt.
  Variable c : config.
  Hypothesis no_escape : cf_esc c = None.
  Hypothesis T : tame c.
  Notation E := (cf_eng c).

  Lemma no_esc' : forall sc inp k cont, with_escape c sc inp k cont = cont tt.
  Proof. intros. unfold with_escape. rewrite no_escape. auto. Qed.

  Definition strict (run : parser -> scope -> scanner -> nat -> out) (p : parser) : Prop :=
    forall sc s k v s' k' n n', run p sc s k = (ROk v, s', k') -> len s n -> len s' n' -> n' < n.

  Lemma run_len : forall f e p sc s k v s' k' n, parse c f e p sc s k = (ROk v, s', k') -> len s n ->
    exists n', len s' n' /\ n' <= n.
  Proof.
    intros f e p sc s k v s' k' n P L. eapply forward_len; eauto.
    eapply parse_moves_forward; eauto using len_range; discriminate.
  Qed.
  Lemma fwd_len : forall s r s' k n, fwd s (r, s', k) -> (exists v, r = ROk v) \/ (exists e, r = RErr e) -> len s n ->
    exists n', len s' n' /\ n' <= n.
  Proof. intros s r s' k n F [[v ->]|[e ->]] L; simpl in F; eapply forward_len; eauto. Qed.

  Lemma seq_strict : forall f e rule ps, Exists (strict (parse c f e)) ps ->
    forall ids sc s k acc v s' k' n n', seq_loop c (parse c f e) (is_cut e) rule ids ps sc s k acc = (ROk v, s', k') ->
    len s n -> len s' n' -> n' < n.
  Proof.
    intros f e rule ps. induction ps as [|p ps IH]; intros X ids sc s k acc v s' k' n n' R L L'; [inversion X|].
    simpl in R. destruct (parse c f e p sc s k) as [[[v1|e1| |] s1] k1] eqn:P; try discriminate.
    - destruct (run_len _ _ _ _ _ _ _ _ _ _ P L) as (n1 & L1 & Q1).
      destruct (if is_cut e p then _ else _) as [sc1 k2].
      pose proof (seq_loop_fwd c (parse c f e) (is_cut e) rule (parse_forward c T f e) ps (tl ids)
        (with_val sc1 (hd ""%string ids) v1) s1 k2 (acc ++ [v1]) (len_range _ _ L1)) as F. rewrite R in F.
      destruct (fwd_len _ _ _ _ _ F (or_introl (ex_intro _ v eq_refl)) L1) as (n2 & L2 & Q2).
      rewrite (len_fun _ _ _ L' L2). apply Exists_cons in X as [X|X].
      + pose proof (X _ _ _ _ _ _ _ _ P L L1). lia.
      + pose proof (IH X _ _ _ _ _ _ _ _ _ _ R L1 L2). lia.
    - destruct (is_fatal e1); discriminate.
  Qed.
  Lemma quant_strict : forall f e rule mn mx p sc pc mc, strict (parse c f e) p ->
    forall fuel s k acc v s' k' n n', length acc < mn \/ False ->
    quant_loop (parse c f e) fuel rule mn mx p sc pc mc s k acc = (ROk v, s', k') -> len s n -> len s' n' -> n' < n.
  Proof.
    intros f e rule mn mx p sc pc mc ST fuel s k acc v s' k' n n' [A|[]] R L L'.
    destruct fuel as [|fu]; simpl in R.
    - destruct (_ || _); [discriminate|]. rewrite (proj2 (Nat.leb_gt mn (length acc))) in R by auto. discriminate.
    - destruct (_ || _).
      + destruct (parse c f e p sc s k) as [[[v1|e1| |] s1] k1] eqn:P; try discriminate.
        * destruct (run_len _ _ _ _ _ _ _ _ _ _ P L) as (n1 & L1 & Q1). pose proof (ST _ _ _ _ _ _ _ _ P L L1).
          pose proof (quant_loop_fwd (parse c f e) rule mn mx p sc pc mc (parse_forward c T f e) fu s1 k1 (acc ++ [v1])
            (len_range _ _ L1)) as F. rewrite R in F.
          destruct (fwd_len _ _ _ _ _ F (or_introl (ex_intro _ v eq_refl)) L1) as (n2 & L2 & Q2).
          rewrite (len_fun _ _ _ L' L2). lia.
        * destruct (not_my_fatal e1 mc); [discriminate|]. rewrite (proj2 (Nat.leb_gt mn (length acc))) in R by auto. discriminate.
      + rewrite (proj2 (Nat.leb_gt mn (length acc))) in R by auto. discriminate.
  Qed.
  Lemma oneof_strict : forall f e rule sc pc mc ps, Forall (strict (parse c f e)) ps ->
    forall i s fur k v s' k' n n', oneof_loop (parse c f e) rule i ps sc pc mc s fur k = (ROk v, s', k') ->
    len s n -> len s' n' -> n' < n.
  Proof.
    intros f e rule sc pc mc. induction ps as [|p ps IH]; intros X i s fur k v s' k' n n' R L L'; [discriminate|].
    inversion X; subst. simpl in R. destruct (parse c f e p sc s k) as [[[v1|e1| |] s1] k1] eqn:P; try discriminate.
    - inversion R; subst. eauto.
    - destruct (not_my_fatal e1 mc); [discriminate|]. eauto.
  Qed.

  Lemma eat_token_strict : forall re s l s' n n', biting E re -> eat_token E re s = TokOk l s' -> len s n -> len s' n' -> n' < n.
  Proof.
    intros re s l s' n n' B H L L'. unfold eat_token, eat_regexp in H.
    destruct (sslice s) as [t|] eqn:S; [|discriminate].
    destruct (re_find E re t) as [[|[a b] gs]|] eqn:F; try discriminate.
    destruct (a =? 0)%Z; simpl in H; [|discriminate].
    assert (Q : s' = skip s b).
    { destruct (length gs) as [|[|[|?]]]; try discriminate; destruct gs as [|? [|? ?]]; simpl in H; try discriminate; inversion H; auto. }
    subst. pose proof (B _ _ _ _ F). destruct T as [OK _].
    destruct (ok_shape E OK _ _ _ F) as (a' & b' & gs' & Q & ? & ? & BL & _). inversion Q; subst a' b' gs'.
    destruct L as (o & i & W). unfold blen in BL. rewrite (window_length _ _ _ _ _ W S) in BL.
    assert (W' := skip_window _ _ _ _ b W ltac:(lia) BL).
    assert (n' = n - Z.to_nat b) by (eapply len_fun; eauto; do 2 eexists; eauto). lia.
  Qed.

  Theorem peats_strict : forall f e R p, env_safe E e R -> peats E R p -> strict (parse c f e) p.
  Proof.
    induction f as [|f IH]; intros e R p ES PE sc s k v s' k' n n' P L L'; [discriminate|].
    destruct PE; cbn [parse] in P; rewrite ?no_esc' in P; try discriminate.
    - pose proof (resolve_link_safe _ _ _ r ES) as RL. destruct (resolve_link e r) as [[q e']|]; [|discriminate].
      destruct RL as (R' & ? & ea & I & ES' & _ & A). rewrite H in I. inversion I; subst. eapply (IH e' R'); eauto.
    - destruct (eat_token E re s) eqn:Q; try discriminate. inversion P; subst. eapply eat_token_strict; eauto.
    - destruct (eat_token E re s) eqn:Q; try discriminate. inversion P; subst. eapply eat_token_strict; eauto.
    - eapply seq_strict; [|exact P|exact L|exact L']. eapply Exists_impl; [|exact H]. intros; eapply IH; eauto.
    - destruct (replace_cut c false sc k) as [[[sc' pc] mc] k1]. eapply oneof_strict; [|exact P|exact L|exact L'].
      eapply Forall_impl; [|exact H]. intros; eapply IH; eauto.
    - destruct (parse c f e p sc s k) as [[[v1|e1| |] s1] k1] eqn:Q; try discriminate.
      destruct (delim_node r a cs ce v1); inversion P; subst. eapply IH; eauto.
    - destruct (replace_cut c false sc k) as [[[sc' pc] mc] k1]. eapply quant_strict in P; eauto.
    - eapply IH; eauto.
    - eapply (IH (rules :: e) (m :: R)); eauto. constructor; auto.
  Qed.

  (** * Termination *)

  Definition halts (e : env) (p : parser) (sc : scope) (s : scanner) (k : nat) : Prop :=
    exists f, finished (parse c f e p sc s k).

  Lemma halts_more : forall e p sc s k, halts e p sc s k -> exists f0, forall f, f0 <= f -> 
    finished (parse c f e p sc s k) /\ parse c f e p sc s k = parse c f0 e p sc s k.
  Proof.
    intros e p sc s k [f0 F]. exists f0. intros f L. pose proof (parse_mono c f0 f e L p sc s k F) as Q. rewrite Q. auto.
  Qed.

  Lemma seq_halts : forall e rule ps ids sc s k acc,
    (* the first element halts here; the rest halts wherever the first one leads *)
    match ps with
    | [] => True
    | p :: ps' => halts e p sc s k /\
        forall v s1 k1, (exists f, parse c f e p sc s k = (ROk v, s1, k1)) ->
        forall sc1 k2, exists f, finished (seq_loop c (parse c f e) (is_cut e) rule (tl ids) ps' sc1 s1 k2 (acc ++ [v]))
    end ->
    exists f, finished (seq_loop c (parse c f e) (is_cut e) rule ids ps sc s k acc).
  Proof.
    intros e rule ps ids sc s k acc H. destruct ps as [|p ps]; [exists 0; discriminate|].
    destruct H as [H1 H2]. destruct (halts_more _ _ _ _ _ H1) as (f0 & M).
    destruct (M f0 (le_n _)) as [F0 _]. unfold finished, out_res in F0.
    destruct (parse c f0 e p sc s k) as [[r s1] k1] eqn:P. simpl in F0.
    destruct r as [v|er| |].
    - destruct (if is_cut e p then let '(s0, _, _, k2) := replace_cut c true sc k1 in (s0, k2) else (sc, k1)) as [sc1 k2] eqn:Q.
      destruct (H2 v s1 k1 (ex_intro _ f0 P) (with_val sc1 (hd ""%string ids) v) k2) as (f1 & F1).
      exists (max f0 f1). simpl. destruct (M (max f0 f1)) as [_ ->]; [lia|]. rewrite Q.
      rewrite (seq_loop_ext c (parse c f1 e) (parse c (max f0 f1) e)); auto. apply parse_mono. lia.
    - exists f0. simpl. rewrite P. destruct (is_fatal er); discriminate.
    - exists f0. simpl. rewrite P. discriminate.
    - congruence.
  Qed.

  (** Everything safe halts on input of length [n], within the bound [b]. *)
  Definition claim (n : nat) (b : option nat) : Prop :=
    forall p e R sc s k, env_safe E e R -> len s n -> psafe E R b p -> halts e p sc s k.

  Lemma seq_short : forall n e R rule, env_safe E e R -> (forall n', n' < n -> claim n' None) ->
    forall ps ids sc s k acc n', n' < n -> len s n' -> psafe_all E R None ps ->
    exists f, finished (seq_loop c (parse c f e) (is_cut e) rule ids ps sc s k acc).
  Proof.
    intros n e R rule ES SH. induction ps as [|p ps IH]; intros ids sc s k acc n' LT L S; apply (seq_halts e rule _ ids sc s k acc); auto.
    assert (psafe E R None p) by (inversion S; auto). split; [eapply SH; eauto|].
    intros v s1 k1 [f P] sc1 k2. destruct (run_len _ _ _ _ _ _ _ _ _ _ P L) as (n1 & L1 & Q1).
    eapply (IH _ _ _ _ _ n1); auto; [lia|]. inversion S; auto.
  Qed.

  Lemma seq_here : forall n e R rule b, env_safe E e R -> (forall n', n' < n -> claim n' None) ->
    forall ps, Forall (fun p => forall sc s k, len s n -> psafe E R b p -> halts e p sc s k) ps ->
    forall ids sc s k acc, len s n -> psafe_all E R b ps ->
    exists f, finished (seq_loop c (parse c f e) (is_cut e) rule ids ps sc s k acc).
  Proof.
    intros n e R rule b ES SH. induction 1 as [|p ps Fp Fps IH]; intros ids sc s k acc L S; apply (seq_halts e rule _ ids sc s k acc); auto.
    assert (SP : psafe E R b p) by (inversion S; auto). split; [eapply Fp; eauto|].
    intros v s1 k1 [f P] sc1 k2. destruct (run_len _ _ _ _ _ _ _ _ _ _ P L) as (n1 & L1 & Q1).
    assert (SN : psafe_all E R None ps).
    { inversion S; subst; auto. eapply psafe_all_mono; eauto. destruct b; simpl; auto. }
    destruct (Nat.eq_dec n1 n) as [->|NE].
    - inversion S; subst; auto.
      pose proof (peats_strict f e R p ES ltac:(assumption) _ _ _ _ _ _ _ _ P L L1). lia.
    - eapply (seq_short n) with (n' := n1); eauto. lia.
  Qed.

  Lemma oneof_halts : forall n e rule sc pc mc ps, 
    Forall (fun p => forall s k, len s n -> halts e p sc s k) ps ->
    forall i s fur k, len s n ->
    exists f, finished (oneof_loop (parse c f e) rule i ps sc pc mc s fur k).
  Proof.
    intros n e rule sc pc mc. induction 1 as [|p ps Fp Fps IH]; intros i s fur k L; [exists 0; discriminate|].
    destruct (Fp s k L) as (f0 & F0). 
    unfold finished, out_res in F0. destruct (parse c f0 e p sc s k) as [[r s1] k1] eqn:P. simpl in F0.
    assert (M : forall f, f0 <= f -> parse c f e p sc s k = (r, s1, k1)).
    { intros f LE. rewrite (parse_mono c f0 f e LE p sc s k); [auto|]. rewrite P. auto. }
    destruct r as [v|er| |]; try (exists f0; simpl; rewrite P; discriminate); [|congruence].
    destruct (not_my_fatal er mc) eqn:NF; [exists f0; simpl; rewrite P, NF; discriminate|].
    destruct (IH (Datatypes.S i) s (if (offset fur <? offset s1)%Z then s1 else fur) k1 L) as (f1 & F1).
    exists (max f0 f1). simpl. rewrite M by lia. rewrite NF.
    rewrite (oneof_loop_ext (parse c f1 e) (parse c (max f0 f1) e)); auto. intros ? ? ? ?; apply parse_mono. lia.
  Qed.

  Lemma quant_halts : forall n e R rule mn mx p sc pc mc, env_safe E e R -> (forall n', n' < n -> claim n' None) ->
    psafe E R None p -> (mx = 0 -> peats E R p) ->
    (forall s k, len s n -> halts e p sc s k) ->
    forall room s k acc n', n' <= n -> len s n' -> (mx = 0 -> n' <= room) -> (mx <> 0 -> mx - length acc <= room) ->
    exists f, finished (quant_loop (parse c f e) f rule mn mx p sc pc mc s k acc).
  Proof.
    intros n e R rule mn mx p sc pc mc ES SH SP EA HERE. induction room as [|room IH]; intros s k acc n' LE L R1 R2.
    - destruct mx as [|mx].
      + (* no input left: the body cannot match *)
        assert (H : halts e p sc s k).
        { destruct (Nat.eq_dec n' n) as [->|]; [auto|]. apply (SH n' ltac:(lia) p e R); auto. }
        destruct H as [f0 F0]. unfold finished, out_res in F0.
        destruct (parse c f0 e p sc s k) as [[r s1] k1] eqn:P. simpl in F0.
        destruct r as [v|er| |].
        * destruct (run_len _ _ _ _ _ _ _ _ _ _ P L) as (n1 & L1 & Q1).
          pose proof (peats_strict f0 e R p ES (EA eq_refl) _ _ _ _ _ _ _ _ P L L1). specialize (R1 eq_refl). lia.
        * exists (Datatypes.S f0). cbn [quant_loop Nat.eqb orb].
          rewrite (parse_mono c f0 (Datatypes.S f0) e (le_S _ _ (le_n _)) p sc s k); rewrite P; [|exact F0].
          destruct (not_my_fatal er mc); [discriminate|]. destruct (Nat.leb mn (length acc)); discriminate.
        * exists (Datatypes.S f0). cbn [quant_loop Nat.eqb orb].
          rewrite (parse_mono c f0 (Datatypes.S f0) e (le_S _ _ (le_n _)) p sc s k); rewrite P; [discriminate|exact F0].
        * congruence.
      + exists 0. cbn [quant_loop Nat.eqb orb]. rewrite (proj2 (Nat.ltb_ge _ _)) by lia.
        destruct (Nat.leb mn (length acc)); discriminate.
    - destruct (Nat.eqb mx 0 || Nat.ltb (length acc) mx) eqn:G.
      2:{ exists 0. cbn [quant_loop]. rewrite G. destruct (Nat.leb mn (length acc)); discriminate. }
      assert (H : halts e p sc s k).
      { destruct (Nat.eq_dec n' n) as [->|]; [auto|]. apply (SH n' ltac:(lia) p e R); auto. }
      destruct H as [f0 F0]. unfold finished, out_res in F0.
      destruct (parse c f0 e p sc s k) as [[r s1] k1] eqn:P. simpl in F0.
      assert (M : forall f, f0 <= f -> parse c f e p sc s k = (r, s1, k1)).
      { intros f LF. rewrite (parse_mono c f0 f e LF p sc s k); [auto|]. rewrite P. auto. }
      destruct r as [v|er| |].
      + destruct (run_len _ _ _ _ _ _ _ _ _ _ P L) as (n1 & L1 & Q1).
        destruct (IH s1 k1 (acc ++ [v]) n1) as (f1 & F1); auto; [lia| | |].
        * intros M0. pose proof (peats_strict f0 e R p ES (EA M0) _ _ _ _ _ _ _ _ P L L1). specialize (R1 M0). lia.
        * intros M0. rewrite app_length. simpl. specialize (R2 M0). lia.
        * exists (Datatypes.S (max f0 f1)). cbn [quant_loop]. rewrite G, M by lia.
          rewrite (quant_loop_ext (parse c f1 e) (parse c (Datatypes.S (max f0 f1)) e) _ _ _ _ ltac:(intros ? ? ? ?; apply parse_mono; lia) f1); auto. lia.
      + exists (Datatypes.S f0). cbn [quant_loop]. rewrite G, M by lia.
        destruct (not_my_fatal er mc); [discriminate|]. destruct (Nat.leb mn (length acc)); discriminate.
      + exists (Datatypes.S f0). cbn [quant_loop]. rewrite G, M by lia. discriminate.
      + congruence.
  Qed.

  (** Literals made from bound values. *)
  Lemma ref_halts : forall t v wrap rule q, ref_term v t -> term_parser E t wrap rule = COk q ->
    forall e sc s k n, len s n -> halts e q sc s k.
  Proof.
    induction t using term_ind'; intros v wrap rule q RT C e sc s0 kk nn L; inversion RT; subst.
    - simpl in C. apply cbind_ok in C as (? & _ & C). apply cbind_ok in C as (re & _ & C). inversion C; subst.
      exists 1. cbn [parse]. rewrite no_esc'. destruct (eat_token E re s0); discriminate.
    - simpl in C. apply cbind_ok in C as (ps & C1 & C). inversion C; subst; clear C.
      assert (G : forall cs ts ps, Forall2 ref_term cs ts -> ctraverse (fun x => cbind (term_parser E x wrap "") (fun p => COk (reg p))) ts = COk ps ->
        Forall (fun t => forall v wrap rule q, ref_term v t -> term_parser E t wrap rule = COk q ->
                 forall e sc s k n, len s n -> halts e q sc s k) ts ->
        forall ids sc s k acc n, len s n -> exists f, finished (seq_loop c (parse c f e) (is_cut e) rule ids ps sc s k acc)).
      { clear -T no_escape. intros cs0 ts0 ps0 F2. revert ps0. induction F2 as [|v t cs ts RT F2 IH]; intros ps CT FA ids sc s k acc n L; simpl in CT.
        - inversion CT; subst. exists 0. discriminate.
        - apply cbind_ok in CT as (p & Cp & CT). apply cbind_ok in Cp as (p0 & Cp0 & Cp). apply cbind_ok in CT as (ps' & Cps & CT).
          inversion CT; subst. inversion Cp; subst. inversion FA as [|? ? FA1 FA2]; subst.
          assert (reg p0 = p0) as -> by (inversion RT; subst; simpl in Cp0; apply cbind_ok in Cp0 as (? & _ & Cp0); try (apply cbind_ok in Cp0 as (? & _ & Cp0)); inversion Cp0; auto).
          apply (seq_halts e rule _ ids sc s k acc). split; [eapply FA1; eauto|].
          intros v1 s1 k1 [f P] sc1 k2. destruct (run_len _ _ _ _ _ _ _ _ _ _ P L) as (n1 & L1 & Q1). eapply IH; eauto. }
      destruct (G _ _ _ ltac:(eassumption) C1 H (map ident_from_term ts) sc s0 kk [] nn L) as (f & F).
      exists (Datatypes.S f). cbn [parse]. rewrite no_esc'. exact F.
  Qed.

  Lemma claim_step : forall n b, (forall n', n' < n -> claim n' None) ->
    (forall k, below k b -> claim n (Some k)) -> claim n b.
  Proof.
    intros n b SH BL p. induction p using parser_ind'; intros e R sc inp k0 ES L S; inversion S; subst.
    - exists 1. discriminate.
    - pose proof (resolve_link_safe _ _ _ t ES) as RL. destruct (resolve_link e t) as [[q e']|] eqn:RS.
      + destruct RL as (R' & k2 & ea & I & ES' & S' & _). assert (k2 = k) by congruence. subst.
        destruct (BL k ltac:(assumption) q e' R' sc inp k0 ES' L S') as (f & F). exists (Datatypes.S f). cbn [parse]. rewrite RS. auto.
      + exists 1. cbn [parse]. rewrite RS. discriminate.
    - exists 1. cbn [parse]. rewrite no_esc'. destruct (eat_token E re inp); discriminate.
    - exists 1. cbn [parse]. rewrite no_esc'. destruct (eat_token E re inp); discriminate.
    - match goal with F : Forall _ ps |- _ => destruct (seq_here n e R r b ES SH ps
        ltac:(eapply Forall_impl; [|exact F]; cbv beta; intros; eauto) ids sc inp k0 [] L ltac:(assumption)) as (f & FF) end.
      exists (Datatypes.S f). cbn [parse]. rewrite no_esc'. auto.
    - destruct (IHp e R sc inp k0 ES L ltac:(assumption)) as (f & F). exists (Datatypes.S f). cbn [parse]. rewrite no_esc'.
      unfold finished, out_res in *. destruct (parse c f e p sc inp k0) as [[[v|er| |] s1] k1]; simpl in *; auto.
      destruct (delim_node r a cs ce v); discriminate.
    - destruct (IHp e R sc inp k0 ES L ltac:(assumption)) as (f & F). exists (Datatypes.S f). cbn [parse]. rewrite no_esc'.
      unfold finished, out_res in *. destruct (parse c f e p sc inp k0) as [[[v|er| |] s1] k1]; simpl in *; auto; discriminate.
    - destruct (replace_cut c false sc k0) as [[[sc' pc] mc] k1] eqn:RC.
      destruct (quant_halts n e R r mn mx p sc' pc mc ES SH) with (room := max n mx) (s := inp) (k := k1) (acc := @nil tree) (n' := n)
        as (f & F); auto; try lia.
      + eapply psafe_mono; eauto. destruct b; simpl; auto.
      + intros. eapply IHp; eauto.
      + exists (Datatypes.S f). cbn [parse]. rewrite no_esc', RC. exact F.
    - destruct (replace_cut c false sc k0) as [[[sc' pc] mc] k1] eqn:RC.
      destruct (oneof_halts n e r sc' pc mc ps) with (i := 0) (s := inp) (fur := inp) (k := k1) as (f & F); auto.
      + match goal with F1 : Forall _ ps, F2 : Forall _ ps |- _ => rewrite Forall_forall in *; intros x I s k L'; eapply F1; eauto end.
      + exists (Datatypes.S f). cbn [parse]. rewrite no_esc', RC. exact F.
    - assert (GO : forall v t, ref_term v t -> exists f, forall check,
        finished match term_parser E t None i with
              | COk q =>
                  match parse c f [] q sc inp k0 with
                  | (ROk v, inp', k') => if check v : bool then (ROk v, inp', k') else (RErr (EParse i), inp', k')
                  | r => r
                  end
              | _ => (RPanic, inp, k0)
              end).
      { intros v t RT. destruct (term_parser E t None i) as [q| |] eqn:C; try (exists 0; discriminate).
        destruct (ref_halts t v None i q RT C [] sc inp k0 n L) as (f & F). exists f. intros check.
        unfold finished, out_res in *. destruct (parse c f [] q sc inp k0) as [[[v1|er| |] s1] k1]; simpl in *; auto.
        destruct (check v1); discriminate. }
      destruct (lookup i (svals sc)) as [v|] eqn:LK.
      + destruct (term_from_ref_val v) as [t|] eqn:TV.
        * destruct (GO v t) as (f & F); [apply term_from_ref_val_spec; auto|].
          exists (Datatypes.S f). cbn [parse]. rewrite no_esc', LK, TV. apply F.
        * exists 1. cbn [parse]. rewrite no_esc', LK, TV. discriminate.
      + destruct d as [x|].
        * destruct (term_parser E (TS x) None i) as [q| |] eqn:C.
          -- exists 2. cbn [parse]. rewrite no_esc', LK, C. cbn [term_parser] in C. apply cbind_ok in C as (? & _ & C). apply cbind_ok in C as (re & _ & C). inversion C; subst.
             rewrite no_esc'. destruct (eat_token E re inp); discriminate.
          -- exists 1. cbn [parse]. rewrite no_esc', LK, C. discriminate.
          -- exists 1. cbn [parse]. rewrite no_esc', LK, C. discriminate.
        * exists 1. cbn [parse]. rewrite no_esc', LK. discriminate.
    - exists 1. cbn [parse]. rewrite no_esc'. destruct (lookup s (cf_ext c)) as [fn|]; [|discriminate]. destruct (fn sc inp) as [i' [t|er]]; discriminate.
    - destruct (IHp e R sc inp k0 ES L ltac:(assumption)) as (f & F). exists (Datatypes.S f). exact F.
    - destruct (IHp (rs :: e) (m :: R) sc inp k0 ltac:(constructor; auto) L ltac:(assumption)) as (f & F). exists (Datatypes.S f). exact F.
  Qed.

  Theorem safe_halts : forall n b, claim n b.
  Proof.
    induction n as [n SH] using lt_wf_ind.
    assert (B : forall k, claim n (Some k)).
    { induction k as [k IH] using lt_wf_ind. apply claim_step; [intros; apply SH; auto|]. simpl. auto. }
    intros [k|]; auto. apply claim_step; [intros; apply SH; auto|]. auto.
  Qed.
End Halt.

(** * From terms to compiled parsers *)

Lemma psafe_reg : forall E R b p, psafe E R b (reg p) -> psafe E R b p.
Proof. intros E R b p H. destruct p; auto. constructor. Qed.
Lemma peats_reg : forall E R p, peats E R (reg p) -> peats E R p.
Proof. intros E R p H. destruct p; auto. constructor. Qed.

Lemma alias_end : forall E R w g m, table E (m :: R) w g m -> forall t t', alias_body g t t' ->
  forall r k e, lookup r g = Some t -> lookup r m = Some (k, e) ->
  exists r' k' e', lookup r' g = Some t' /\ lookup r' m = Some (k', e') /\ k' <= k /\ (e = true -> e' = true).
Proof.
  intros E R w g m T t t' A. inversion T as [? ? ? ? K S EA]; subst.
  induction A as [t N|x t t' L A IH]; intros r k e LG LM.
  - exists r, k, e. auto.
  - pose proof (S _ _ _ _ LG LM) as SR. inversion SR as [| | | |? ? ? ? k1 e1 I B| | | | | | | |]; subst.
    simpl in I, B. destruct (lookup x m) as [[k2 e2]|] eqn:LX; [|apply K in LX; congruence].
    inversion I; subst. destruct (IH _ _ _ L LX) as (r' & k' & e' & Q1 & Q2 & Q3 & Q4).
    exists r', k', e'. split; auto. split; auto. split; [lia|]. intros ->. apply Q4.
    pose proof (EA _ _ _ LG LM) as ER. inversion ER as [| |? ? ? k3 I3| | | | | | |]; subst. simpl in I3. rewrite LX in I3. inversion I3; auto.
Qed.

Lemma compile_rules_table : forall E R w g m rules, table E (m :: R) w g m -> compile_rules (rule_fns E w g) = COk rules ->
  (forall r t k e, lookup r g = Some t -> lookup r m = Some (k, e) ->
     forall rule p, term_parser E t w rule = COk p -> psafe E (m :: R) (Some k) (reg p)) ->
  (forall r t k, lookup r g = Some t -> lookup r m = Some (k, true) ->
     forall rule p, term_parser E t w rule = COk p -> peats E (m :: R) (reg p)) ->
  ptable E (m :: R) rules m.
Proof.
  intros E R w g m rules T C HS HE. constructor.
  - intros r. pose proof (compile_rules_lookup _ _ _ _ r C) as L. inversion T as [? ? ? ? K _ _]; subst. rewrite <- K.
    destruct (lookup r rules); [destruct L as (t & t' & L & _); split; congruence|tauto].
  - intros r q k e LR LM. pose proof (compile_rules_lookup _ _ _ _ r C) as L. rewrite LR in L. destruct L as (t & t' & L & A & P).
    destruct (alias_end _ _ _ _ _ T _ _ A _ _ _ L LM) as (r' & k' & e' & Q1 & Q2 & Q3 & Q4).
    apply psafe_reg. apply psafe_mono with (Some k'); [eapply HS; eauto|simpl; auto].
  - intros r q k LR LM. pose proof (compile_rules_lookup _ _ _ _ r C) as L. rewrite LR in L. destruct L as (t & t' & L & A & P).
    destruct (alias_end _ _ _ _ _ T _ _ A _ _ _ L LM) as (r' & k' & e' & Q1 & Q2 & Q3 & Q4).
    rewrite Q4 in Q2 by auto. apply peats_reg. eapply HE; eauto.
Qed.

Lemma must_compile_bites : forall E re re' pat, bites E pat -> must_compile E pat = COk re' -> re = re' -> biting E re.
Proof. intros E re re' pat B M ->. unfold must_compile in M. destruct (re_valid _ _); [|discriminate]. inversion M; subst. exact B. Qed.

Lemma scoped_peats : forall E R m rules p, ptable E (m :: R) rules m ->
  (forall r q, lookup r rules = Some q -> is_prule q = false) ->
  peats E (m :: R) (reg p) -> peats E R (reg (scoped_result rules p)).
Proof.
  intros E R m rules p T N H. unfold scoped_result.
  assert (G : forall q, peats E (m :: R) q -> peats E R (PScoped rules q)) by (intros; eapply pe_scoped; eauto).
  destruct p; try (apply G; exact H).
  simpl in H. inversion H as [|? ? k I| | | | | | | |]; subst. inversion T as [? ? ? K S EA]; subst.
  destruct (lookup t rules) as [q|] eqn:L.
  - specialize (N _ _ L). simpl in I. destruct (lookup t m) as [[k1 e1]|] eqn:M; [|apply K in M; congruence].
    inversion I; subst. pose proof (G _ (EA _ _ _ L M)). destruct q; auto; discriminate.
  - simpl. apply K in L. simpl in I. rewrite L in I. econstructor; eauto.
Qed.
Lemma scoped_psafe : forall E R b m rules p, ptable E (m :: R) rules m ->
  (forall r q, lookup r rules = Some q -> is_prule q = false) ->
  psafe E (m :: R) b (reg p) -> psafe E R b (reg (scoped_result rules p)).
Proof.
  intros E R b m rules p T N H. unfold scoped_result.
  assert (G : forall q, psafe E (m :: R) b q -> psafe E R b (PScoped rules q)) by (intros; eapply ps_scoped; eauto).
  destruct p; try (apply G; exact H).
  simpl in H. inversion H as [|? ? ? k e I B| | | | | | | | | | |]; subst. inversion T as [? ? ? K S EA]; subst.
  destruct (lookup t rules) as [q|] eqn:L.
  - specialize (N _ _ L). simpl in I. destruct (lookup t m) as [[k1 e1]|] eqn:M; [|apply K in M; congruence].
    inversion I; subst.
    assert (SQ : psafe E (m :: R) b q).
    { apply psafe_mono with (Some k); [eapply S; eauto|]. destruct b; simpl in *; auto; lia. }
    pose proof (G _ SQ). destruct q; auto; discriminate.
  - simpl. apply K in L. simpl in I. rewrite L in I. econstructor; eauto.
Qed.

Lemma ctraverse_Exists : forall A B (f : A -> cres B) (P : B -> Prop) l m, ctraverse f l = COk m ->
  Exists (fun x => forall y, f x = COk y -> P y) l -> Exists P m.
Proof.
  intros A B f P l m C. apply ctraverse_ok in C. induction C as [|x y l m H C IH]; intros X; inversion X; subst; auto.
Qed.
Lemma ctraverse_Forall : forall A B (f : A -> cres B) (P : B -> Prop) l m, ctraverse f l = COk m ->
  Forall (fun x => forall y, f x = COk y -> P y) l -> Forall P m.
Proof.
  intros A B f P l m C. apply ctraverse_ok in C. induction C as [|x y l m H C IH]; intros X; inversion X; subst; auto.
Qed.

Lemma reg_bind : forall (m : cres parser) (P : parser -> Prop), (forall p, m = COk p -> P (reg p)) ->
  forall y, cbind m (fun p => COk (reg p)) = COk y -> P y.
Proof. intros m P H y C. apply cbind_ok in C as (p & C1 & C). inversion C; subst. auto. Qed.

Lemma eats_link : forall E R w t, eats E R w t -> forall rule p, term_parser E t w rule = COk p -> peats E R (reg p)
with safe_link : forall E R w b t, safe E R w b t -> forall rule p, term_parser E t w rule = COk p -> psafe E R b (reg p)
with safe_all_link : forall E R w b ts, safe_all E R w b ts -> forall ps,
  ctraverse (fun x => cbind (term_parser E x w "") (fun p => COk (reg p))) ts = COk ps -> psafe_all E R b ps
with table_link : forall E R w g m, table E (m :: R) w g m -> forall rules,
  compile_rules (rule_fns E w g) = COk rules -> ptable E (m :: R) rules m.
Proof.
  - intros E R w t H rule p C. destruct H; cbn [term_parser] in C.
    + apply cbind_ok in C as (pat & C1 & C). apply cbind_ok in C as (re & C2 & C). inversion C; subst. apply pe_s.
      eapply must_compile_bites; eauto. apply H. apply apply_wrap_spec. auto.
    + apply cbind_ok in C as (pat & C1 & C). apply cbind_ok in C as (re & C2 & C). inversion C; subst. apply pe_re.
      eapply must_compile_bites; eauto. apply H. apply apply_wrap_spec. auto.
    + inversion C; subst. simpl. econstructor; eauto.
    + apply cbind_ok in C as (ps & C1 & C). inversion C; subst. simpl. constructor.
      eapply ctraverse_Exists; [exact C1|]. clear C1 C. induction H as [x l HX|x l HX IHX].
      * apply Exists_cons_hd. apply reg_bind. intros p C3. eapply eats_link; eauto.
      * apply Exists_cons_tl. auto.
    + apply cbind_ok in C as (ps & C1 & C). inversion C; subst. simpl. constructor.
      eapply ctraverse_Forall; [exact C1|]. clear C1 C. induction H as [|x l HX F IHF]; constructor; auto.
      apply reg_bind. intros p C3. eapply eats_link; eauto.
    + apply cbind_ok in C as (pt & C1 & C). apply cbind_ok in C as (psep & C2 & C). inversion C; subst. simpl. constructor.
      constructor. pose proof (eats_link _ _ _ _ H _ _ C1) as PT.
      apply Exists_app. right. apply Exists_cons_hd. constructor. apply Exists_cons_hd. exact PT.
    + apply cbind_ok in C as (q & C1 & C). inversion C; subst. simpl. constructor; auto. eapply eats_link; eauto.
    + eapply eats_link; eauto.
    + apply cbind_ok in C as (q & C1 & C). inversion C; subst. simpl. constructor. apply peats_reg. eapply eats_link; eauto.
    + apply cbind_ok in C as (rules & C1 & C). apply cbind_ok in C as (q & C2 & C). inversion C; subst.
      change (compile_rules (rule_fns E (wrap_in g w) g) = COk rules) in C1.
      eapply scoped_peats; [eapply table_link; eauto| |eapply eats_link; eauto].
      intros r q0 L. eapply nested_not_prule; eauto.
  - intros E R w b t H rule p C. destruct H; cbn [term_parser] in C.
    + apply cbind_ok in C as (pat & C1 & C). apply cbind_ok in C as (re & C2 & C). inversion C; subst. constructor.
    + apply cbind_ok in C as (pat & C1 & C). apply cbind_ok in C as (re & C2 & C). inversion C; subst. constructor.
    + inversion C; subst. constructor.
    + inversion C; subst. constructor.
    + inversion C; subst. simpl. econstructor; eauto.
    + apply cbind_ok in C as (ps & C1 & C). inversion C; subst. simpl. constructor. eapply safe_all_link; eauto.
    + apply cbind_ok in C as (ps & C1 & C). inversion C; subst. simpl. constructor.
      eapply ctraverse_Forall; [exact C1|]. clear C1 C. induction H as [|x l HX F IHF]; constructor; auto.
      apply reg_bind. intros p C3. eapply safe_link; eauto.
    + change (term_parser E (TDelim t sep a cs ce) w rule = COk p) in C. apply delim_comp in C as (child & -> & C).
      simpl. constructor. apply psafe_reg. eapply safe_link; eauto.
    + apply cbind_ok in C as (q & C1 & C). inversion C; subst. simpl. constructor; auto. eapply safe_link; eauto.
    + apply cbind_ok in C as (q & C1 & C). inversion C; subst. simpl. constructor; auto.
      * eapply safe_link; eauto.
      * intros M. eapply eats_link; eauto.
    + eapply safe_link; eauto.
    + apply cbind_ok in C as (q & C1 & C). inversion C; subst. simpl. constructor. apply psafe_reg. eapply safe_link; eauto.
    + apply cbind_ok in C as (rules & C1 & C). apply cbind_ok in C as (q & C2 & C). inversion C; subst.
      change (compile_rules (rule_fns E (wrap_in g w) g) = COk rules) in C1.
      eapply scoped_psafe; [eapply table_link; eauto| |eapply safe_link; eauto].
      intros r q0 L. eapply nested_not_prule; eauto.
  - intros E R w b ts H ps C. destruct H; cbn [ctraverse] in C.
    + inversion C; subst. constructor.
    + apply cbind_ok in C as (p & C1 & C). apply cbind_ok in C as (ps' & C2 & C). inversion C; subst.
      apply cbind_ok in C1 as (p0 & C1 & Q). inversion Q; subst.
      apply psa_eaten; [eapply safe_link|eapply eats_link|eapply safe_all_link]; eauto.
    + apply cbind_ok in C as (p & C1 & C). apply cbind_ok in C as (ps' & C2 & C). inversion C; subst.
      apply cbind_ok in C1 as (p0 & C1 & Q). inversion Q; subst.
      apply psa_cons; [eapply safe_link|eapply safe_all_link]; eauto.
  - intros E R w g m H rules C.
    assert (G : (forall r t k e, lookup r g = Some t -> lookup r m = Some (k, e) ->
        forall rule p, term_parser E t w rule = COk p -> psafe E (m :: R) (Some k) (reg p)) /\
      (forall r t k, lookup r g = Some t -> lookup r m = Some (k, true) ->
        forall rule p, term_parser E t w rule = COk p -> peats E (m :: R) (reg p))).
    { clear C. remember (m :: R) as R0. destruct H as [R1 w g m K S A]. split.
      - intros r t k e L1 L2 rule p. apply (safe_link _ _ _ _ _ (S r t k e L1 L2)).
      - intros r t k L1 L2 rule p. apply (eats_link _ _ _ _ (A r t k L1 L2)). }
    destruct G. eapply compile_rules_table; eauto.
Qed.

(** * Whole parses *)

Theorem parse_terminates : forall c g g2 ps, cf_esc c = None -> tame c ->
  compile (cf_eng c) g = COk ps -> resolve_all g = COk g2 -> well_founded_grammar (cf_eng c) g2 ->
  forall r s, in_range s -> exists f0 o, fst o <> RFuel /\ forall f, f0 <= f -> parse_rule c f ps r s = o.
Proof.
  intros c g g2 ps NE T C RA (m & WF) r s (o & i & n & W).
  destruct (compile_resolve_all _ _ _ C) as (g3 & R3 & CR). assert (g3 = g2) by congruence. subst g3.
  assert (CR' : compile_rules (rule_fns (cf_eng c) (lookup WrapRE g2) g2) = COk (p_rules ps)).
  { rewrite <- CR. f_equal. f_equal. simpl. destruct (lookup WrapRE g2); auto. }
  pose proof (table_link _ _ _ _ _ WF _ CR') as PT.
  assert (ES : env_safe (cf_eng c) [p_rules ps] [m]) by (constructor; [constructor|auto]).
  unfold parse_rule. destruct (lookup r (p_rules ps)) as [q|] eqn:L.
  - inversion PT as [? ? ? K S A]; subst. destruct (lookup r m) as [[k e]|] eqn:M; [|apply K in M; congruence].
    destruct (safe_halts c NE T n (Some k) q [p_rules ps] [m] empty_scope s 0 ES (ex_intro _ o (ex_intro _ i W)) (S _ _ _ _ L M)) as (f0 & F).
    exists f0. eexists. split; [|intros f LE; rewrite (parse_mono c f0 f _ LE _ _ _ _ F); reflexivity].
    unfold finished, out_res in F. destruct (parse c f0 [p_rules ps] q empty_scope s 0) as [[[v|er| |] s1] k1]; simpl in *; try congruence; try discriminate.
    destruct (sstring s1) as [[|]|]; discriminate.
  - exists 0. eexists. split; [|reflexivity]. discriminate.
Qed.
