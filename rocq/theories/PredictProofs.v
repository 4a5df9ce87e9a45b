(** Cut points do not change what a predictive grammar accepts. *)
From Verif Require Import Base Scanner ScannerSpec ScannerProofs Syntax Engine Compile Parse PegSpec
  DerivSpec FlowSpec LocalSpec FordSpec CompileProofs FuelProofs PegProofs PegComplete TopProofs DerivProofs FlowProofs LocalProofs
  FordProofs CutSpec CutProofs CutPointSpec PredictSpec.
Local Open Scope Z_scope.

Lemma in_or_then : forall c a e b, In c (or_then a e b) <-> In c a \/ e = true /\ In c b.
Proof. intros c a e b. unfold or_then. rewrite in_app_iff. destruct e; simpl; intuition discriminate. Qed.

Fixpoint predictive_seq (E : engine) (T : table) (us : list term) (next : list ascii) : Prop :=
  match us with
  | [] => True
  | u :: us' => predictive E T u (or_then (starts T (TSeq us')) (forallb (empties T) us') next) /\ predictive_seq E T us' next
  end.
Fixpoint predictive_alt (E : engine) (T : table) (us : list term) (next : list ascii) : Prop :=
  match us with
  | [] => True
  | u :: us' => predictive E T u next /\ apart (starts T u) (flat_map (starts T) us') /\
                (existsb (empties T) us' = true -> apart (starts T u) next) /\ predictive_alt E T us' next
  end.
Lemma predictive_TSeq : forall E T us next, predictive E T (TSeq us) next <-> predictive_seq E T us next.
Proof. intros E T us next. simpl. induction us as [|u us IH]; simpl; [tauto|]. rewrite <- IH. tauto. Qed.
Lemma predictive_TOneof : forall E T us next, predictive E T (TOneof us) next <-> predictive_alt E T us next.
Proof. intros E T us next. simpl. induction us as [|u us IH]; simpl; [tauto|]. rewrite <- IH. tauto. Qed.

Lemma apart_incl : forall a b b', apart a b -> incl b' b -> apart a b'.
Proof. intros a b b' A S c I J. eapply A; eauto. Qed.

(** Fewer bytes may come after: still predictive. *)
Lemma or_then_incl : forall a e b b', incl b b' -> incl (or_then a e b) (or_then a e b').
Proof. intros a e b b' S c. rewrite !in_or_then. intuition. Qed.
Lemma or_again_incl : forall mx a b b', incl b b' -> incl (or_again mx a b) (or_again mx a b').
Proof. intros [|[|mx]] a b b' S; simpl; auto; apply incl_app_app; auto using incl_refl. Qed.
Lemma predictive_less : forall E T t next next', predictive E T t next -> incl next' next -> predictive E T t next'.
Proof.
  intros E T. induction t as [r|x|x|i d|x|ts IH|ts IH|ts IH|u sep a cs ce IHu IHs|u IHu|u mn mx IHu|n u IHu|u g IHu IHg|u IHu] using term_ind';
    intros next next' P S; try exact P; try contradiction.
  - exact (incl_tran S P).
  - rewrite predictive_TSeq in *. induction IH as [|u us H F IHl]; simpl in *; auto. destruct P as [P1 P2].
    split; auto. eapply H; eauto. apply or_then_incl; auto.
  - rewrite predictive_TOneof in *. induction IH as [|u us H F IHl]; simpl in *; auto. destruct P as (P1 & P2 & P3 & P4).
    repeat split; auto; [eapply H; eauto|]. intros X. exact (apart_incl _ _ _ (P3 X) S).
  - cbn [predictive] in *. destruct P as (-> & A & B & C & D). split; auto.
    assert (S1 : forall l : list ascii, incl (l ++ next') (l ++ next)) by (intros l; apply incl_app_app; [apply incl_refl|auto]).
    cbv zeta in *. split; [eapply apart_incl; eauto|]. split; [eapply IHu; eauto|].
    split; [eapply IHs; eauto; apply or_then_incl; auto|].
    intros X. eapply apart_incl; [exact (D X)|]. apply or_then_incl; auto.
  - simpl in *. destruct P as [A B]. split; [eapply apart_incl; eauto|]. eapply IHu; eauto. apply or_again_incl; auto.
  - simpl in *. eauto.
Qed.

Lemma predictive_delim : forall E T u sep a cs ce next, predictive E T (TDelim u sep a cs ce) next ->
  predictive E T (delim_seq u sep cs ce) next /\
  (empties T (delim_seq u sep cs ce) = true -> empties T u = true) /\
  incl (starts T (delim_seq u sep cs ce)) (starts T (TDelim u sep a cs ce)).
Proof.
  intros E T u sep a cs ce next P. cbn [predictive] in P. destruct P as (-> & A & B & C & D). cbv zeta in *.
  unfold delim_seq. split; [|split].
  - rewrite predictive_TSeq.
    assert (K : predictive_seq E T [TSeq [u; Any (TSeq [sep; u])]] next).
    { cbn [predictive_seq]. split; auto. rewrite predictive_TSeq. cbn [predictive_seq].
      assert (N : incl (or_then (starts T (TSeq [])) (forallb (empties T) []) next) next).
      { intros c. rewrite in_or_then. simpl. tauto. }
      repeat split; auto.
      - eapply predictive_less; eauto. intros c. rewrite in_or_then. simpl. rewrite !in_or_then, in_app_iff. simpl.
        rewrite ?in_or_then, ?app_nil_r. simpl. tauto.
      - intros c I J. simpl in I, J. rewrite !in_or_then in I, J. simpl in I, J.
        apply (A c); [rewrite in_or_then; tauto|tauto].
      - unfold Any. eapply predictive_less with (next := or_then (starts T u) (empties T u)
           (or_then (starts T sep) (empties T sep) (starts T u) ++ next)); [exact C|].
        intros c. simpl. rewrite !in_or_then, !in_app_iff, !in_or_then. simpl. rewrite ?andb_true_r. tauto.
      - eapply predictive_less; [exact B|]. intros c. simpl. rewrite !in_or_then, !in_app_iff, !in_or_then. simpl. tauto. }
    destruct cs; [|exact K]. cbn [app predictive_seq]. split; auto.
    pose proof (D eq_refl) as D1. unfold Opt. simpl.
    assert (X : forall c, In c (or_then (or_then (or_then (starts T u) (empties T u) (or_then (or_then (starts T sep) (empties T sep) (or_then (starts T u) (empties T u) [])) true [])) (empties T u && true) []) (empties T u && true && true) next) ->
       In c (or_then (starts T u) (empties T u) (or_then (starts T sep) (empties T sep) (starts T u) ++ next))).
    { intros c. rewrite !in_or_then, in_app_iff, !in_or_then, !andb_true_iff. simpl. tauto. }
    split; [eapply apart_incl; [exact D1|exact X]|].
    eapply predictive_less; [exact C|exact X].
  - destruct cs; simpl; rewrite ?andb_true_r, ?andb_true_iff; tauto.
  - intros c. destruct cs; simpl; rewrite !in_or_then, !in_app_iff; simpl;
      rewrite ?in_or_then, ?andb_true_iff; simpl; destruct (empties T u); simpl; intuition.
Qed.

Section Predict.
  Variables (E : engine) (T : table) (g : grammar).
  Hypothesis OK : engine_ok E.
  Hypothesis TB : textbook_grammar E g.
  Hypothesis PG : predictive_grammar E T g.

  (** What is eaten of [x], leaving [r], is empty or starts with one of the bytes. *)
  Definition eats_from (e : Prop) (l : list ascii) (x r : bytes) : Prop :=
    x = r /\ e \/ exists c p, x = c :: p ++ r /\ In c l.

  Lemma eats_weak : forall (e e' : Prop) l l' x r, eats_from e l x r -> (e -> e') -> incl l l' -> eats_from e' l' x r.
  Proof. intros e e' l l' x r [[A B]|(c & p & A & B)] I J; [left; auto|right; eauto]. Qed.
  Lemma eats_seq : forall (e1 e2 : Prop) l1 l2 x y r, eats_from e1 l1 x y -> eats_from e2 l2 y r ->
    eats_from (e1 /\ e2) l1 x r \/ e1 /\ eats_from (e1 /\ e2) l2 x r.
  Proof.
    intros e1 e2 l1 l2 x y r [[-> A]|(c & p & -> & A)] [[-> B]|(d & q & -> & B)].
    - left. left. auto.
    - right. split; auto. right. eauto.
    - left. right. eauto.
    - left. right. exists c, (p ++ d :: q). rewrite <- app_assoc. auto.
  Qed.

  Theorem ford_eats :
    (forall t x o, ford E g t x o -> forall next r, predictive E T t next -> o = Some r ->
       eats_from (empties T t = true) (starts T t) x r) /\
    (forall ts x o, ford_seq E g ts x o -> forall next r, predictive_seq E T ts next -> o = Some r ->
       eats_from (forallb (empties T) ts = true) (starts T (TSeq ts)) x r) /\
    (forall ts x o, ford_choice E g ts x o -> forall next r, predictive_alt E T ts next -> o = Some r ->
       eats_from (existsb (empties T) ts = true) (flat_map (starts T) ts) x r) /\
    (forall u mn mx x o, ford_rep E g u mn mx x o -> forall next r, predictive E T u next -> o = Some r ->
       eats_from (mn = O \/ empties T u = true) (starts T u) x r).
  Proof.
    apply ford_mutind; try discriminate.
    - intros x r next r' P Q. injection Q as <-. simpl in *. destruct x as [|c x]; [congruence|]. right. exists c, x. simpl. auto.
    - intros x t b gs F next r P Q. injection Q as <-. simpl in P. destruct (P _ _ _ F) as [[-> EM]|(B & c & rest & -> & I)].
      + left. auto.
      + right. destruct (Z.to_nat b) as [|n] eqn:N; [lia|]. simpl. exists c, (firstn n rest). rewrite firstn_skipn. auto.
    - intros r u t o L F IH next r' P Q. destruct (PG _ _ L) as (A & B & C). eapply eats_weak; [eapply IH; eauto| |]; auto.
    - intros n u t o F IH next r P Q. simpl in *. eauto.
    - intros us t o F IH next r P Q. rewrite predictive_TSeq in P. apply (IH _ _ P Q).
    - intros us t o F IH next r P Q. rewrite predictive_TOneof in P. apply (IH _ _ P Q).
    - intros u mn mx t o F IH next r P Q. simpl in P. destruct P as [_ P]. eapply eats_weak; [eapply IH; eauto| |apply incl_refl].
      simpl. intros [->|EM]; auto. rewrite EM. apply orb_true_r.
    - intros u t r F IH next r' P. contradiction.
    - intros u sep a cs ce t o F IH next r P Q. destruct (predictive_delim _ _ _ _ _ _ _ _ P) as (A & B & C).
      eapply eats_weak; [eapply IH; [exact A|exact Q]|exact B|exact C].
    - intros t next r P Q. injection Q as <-. left. auto.
    - intros u us t t1 o F IH F' IH' next r P Q. destruct P as [P1 P2].
      destruct (eats_seq _ _ _ _ _ _ _ (IH _ _ P1 eq_refl) (IH' _ _ P2 Q)) as [X|[EM X]].
      + eapply eats_weak; [exact X| |]; [simpl; rewrite andb_true_iff; auto|]. intros c I. simpl. apply in_or_then. auto.
      + eapply eats_weak; [exact X| |]; [simpl; rewrite andb_true_iff; auto|]. intros c I. simpl. apply in_or_then. auto.
    - intros u us t r F IH next r' P Q. destruct P as (P1 & _). eapply eats_weak; [eapply IH; eauto| |].
      + simpl. intros ->. auto.
      + intros c I. simpl. apply in_or_app. auto.
    - intros u us t o F IH F' IH' next r P Q. destruct P as (_ & _ & _ & P4). eapply eats_weak; [eapply IH'; eauto| |].
      + simpl. intros ->. apply orb_true_r.
      + intros c I. simpl. apply in_or_app. auto.
    - intros u mn mx t t1 o N F IH F' IH' next r P Q.
      destruct (eats_seq _ _ _ _ _ _ _ (IH _ _ P eq_refl) (IH' _ _ P Q)) as [X|[EM X]];
        eapply eats_weak; [exact X| |apply incl_refl|exact X| |apply incl_refl]; tauto.
    - intros u mx t F IH next r P Q. injection Q as <-. left. auto.
    - intros u t next r P Q. injection Q as <-. left. auto.
  Qed.

  Lemma peg_eats : forall vs r t s v s' next x, peg E [g] vs r t s (Succ v s') -> textbook E t -> predictive E T t next ->
    in_range s -> shows s x -> exists y, in_range s' /\ shows s' y /\ ford E g t x (Some y) /\ eats_from (empties T t = true) (starts T t) x y.
  Proof.
    intros vs r t s v s' next x P TX PR I S. destruct (proj1 (peg_ford E g OK TB) _ _ _ _ _ _ P eq_refl TX x I S) as (b & F & SM).
    destruct b as [y|]; simpl in SM; [|contradiction]. destruct SM. exists y. repeat split; auto. eapply (proj1 ford_eats); eauto.
  Qed.
  Lemma seq_eats : forall vs r ts acc s v s' next x, peg_seq E [g] vs false r ts acc s (Succ v s') -> textbook_list E ts -> predictive_seq E T ts next ->
    in_range s -> shows s x -> exists y, in_range s' /\ shows s' y /\ eats_from (forallb (empties T) ts = true) (starts T (TSeq ts)) x y.
  Proof.
    intros vs r ts acc s v s' next x P TX PR I S.
    destruct (proj1 (proj2 (peg_ford E g OK TB)) _ _ _ _ _ _ _ _ P eq_refl TX eq_refl x I S) as (b & F & SM).
    destruct b as [y|]; simpl in SM; [|contradiction]. destruct SM. exists y. repeat split; auto. eapply (proj1 (proj2 ford_eats)); eauto.
  Qed.
  Lemma alt_eats : forall vs r i ts s v s' next x, peg_alt E [g] vs r i ts s (Succ v s') -> textbook_list E ts -> predictive_alt E T ts next ->
    in_range s -> shows s x -> exists y, in_range s' /\ shows s' y /\ eats_from (existsb (empties T) ts = true) (flat_map (starts T) ts) x y.
  Proof.
    intros vs r i ts s v s' next x P TX PR I S.
    destruct (proj1 (proj2 (proj2 (peg_ford E g OK TB))) _ _ _ _ _ _ _ P eq_refl TX x I S) as (b & F & SM).
    destruct b as [y|]; simpl in SM; [|contradiction]. destruct SM. exists y. repeat split; auto. eapply (proj1 (proj2 (proj2 ford_eats))); eauto.
  Qed.
  Lemma rep_eats : forall vs r mn mx t acc s v s' next x, peg_rep E [g] vs r mn mx t acc s (Succ v s') -> textbook E t -> predictive E T t next ->
    in_range s -> shows s x -> exists y, in_range s' /\ shows s' y /\ eats_from True (starts T t) x y.
  Proof.
    intros vs r mn mx t acc s v s' next x P TX PR I S.
    destruct (proj2 (proj2 (proj2 (peg_ford E g OK TB))) _ _ _ _ _ _ _ _ _ P eq_refl TX x I S) as (b & F & SM).
    destruct b as [y|]; simpl in SM; [|contradiction]. destruct SM. exists y. repeat split; auto.
    eapply eats_weak; [eapply (proj2 (proj2 (proj2 ford_eats))); eauto|auto|apply incl_refl].
  Qed.

  (** ** The grammar with cut points *)
  Variables (U : bytes -> Prop) (g1 : grammar).
  Hypothesis MG : marked_grammar U g g1.

  Lemma marked_lookup : forall r, match lookup r g, lookup r g1 with
                                  | Some t, Some t' => marked U t t'
                                  | None, None => True
                                  | _, _ => False
                                  end.
  Proof.
    intros r. assert (F0 := MG). unfold marked_grammar in F0. clear TB PG MG.
    induction F0 as [|[k t] [k' t'] l m [K Q] F IH]; simpl in *; auto. subst k'. destruct (String.eqb r k); auto.
  Qed.
  Lemma wrap1 : wrap_of [g1] = None.
  Proof. simpl. pose proof (marked_lookup WrapRE) as X. rewrite (proj2 TB) in X. destruct (lookup WrapRE g1); auto. contradiction. Qed.

  Lemma alias_marked : forall u t, alias_body g u t -> forall u', marked U u u' -> exists t', alias_body g1 u' t' /\ marked U t t'.
  Proof.
    induction 1 as [t N|r t t2 L A IH]; intros u' M.
    - exists u'. split; auto. constructor. intros r ->. inversion M; subst. eapply N; eauto.
    - inversion M; subst. pose proof (marked_lookup r) as X. rewrite L in X. destruct (lookup r g1) as [t1|] eqn:L1; [|contradiction].
      destruct (IH _ X) as (t' & A' & M'). exists t'. split; auto. econstructor; eauto.
  Qed.
  Lemma alias_unmarked : forall u' t', alias_body g1 u' t' -> forall u, marked U u u' -> exists t, alias_body g u t /\ marked U t t'.
  Proof.
    induction 1 as [t N|r t t2 L A IH]; intros u M.
    - exists u. split; auto. constructor. intros r ->. inversion M; subst. eapply N; eauto.
    - inversion M; subst. pose proof (marked_lookup r) as X. rewrite L in X. destruct (lookup r g) as [t1|] eqn:L1; [|contradiction].
      destruct (IH _ X) as (t' & A' & M'). exists t'. split; auto. econstructor; eauto.
  Qed.
  Lemma alias_predictive : forall u t, alias_body g u t -> forall next, predictive E T u next ->
    predictive E T t next /\ (empties T t = true -> empties T u = true) /\ incl (starts T t) (starts T u).
  Proof.
    induction 1 as [t N|r t t2 L A IH]; intros next P.
    - split; auto. split; auto. apply incl_refl.
    - simpl in P. destruct (PG _ _ L) as (A1 & A2 & A3). destruct (IH next (predictive_less _ _ _ _ _ A3 P)) as (B1 & B2 & B3).
      split; auto. split; [simpl; auto|]. simpl. eapply incl_tran; eauto.
  Qed.
  Lemma alias_ford_inv : forall u t, alias_body g u t -> forall x o, ford E g u x o -> ford E g t x o.
  Proof.
    induction 1 as [t N|r t t2 L A IH]; intros x o F; auto. inversion F; subst. apply IH. congruence.
  Qed.

  (** A cut point takes something off the input. *)
  Lemma commits_eats : forall gs t', commits gs t' -> gs = [g1] -> forall t next, marked U t t' -> textbook E t -> predictive E T t next ->
    forall x y, ford E g t x (Some y) -> x <> y.
  Proof.
    induction 1 as [gs t|gs n t C IH|gs t g0 C IH|gs r gs' t2 RB C IH]; intros Q u next M TX PR x y F; subst.
    - inversion M; subst; [|contradiction]. inversion F; subst. simpl in PR. intros X. apply PR.
      apply (f_equal (@length _)) in X. rewrite app_length in X. destruct s; auto. simpl in X. lia.
    - inversion M; subst. inversion F; subst. eapply IH; eauto.
    - inversion M; subst. contradiction.
    - inversion M; subst. inversion F as [| | | |? u ? ? L F'| | | | | | |]; subst.
      assert (X : gs' = [g1] /\ exists u', lookup r g1 = Some u' /\ alias_body g1 u' t2) by (apply (rule_body_one g1); auto).
      destruct X as (-> & u' & L' & AB). pose proof (marked_lookup r) as X. rewrite L, L' in X.
      destruct (alias_unmarked _ _ AB _ X) as (t & AB' & M').
      destruct (PG _ _ L) as (_ & _ & PU).
      eapply IH; eauto; [eapply alias_textbook; eauto; eapply (proj1 TB); eauto|eapply alias_predictive; eauto|eapply alias_ford_inv; eauto].
  Qed.

  Lemma marked_label : forall t t', marked U t t' -> textbook E t -> label t' = label t.
  Proof.
    induction t as [r|x|x|i d|x|ts IH|ts IH|ts IH|u sep a cs ce IHu IHs|u IHu|u mn mx IHu|n u IHu|u g0 IHu IHg|u IHu] using term_ind';
      intros t' M TX; inversion M; subst; simpl in *; auto; try contradiction.
    rewrite (IHu t'0); auto.
  Qed.

  Lemma delim_marked : forall u u' sep sep' cs ce, marked U u u' -> marked U sep sep' -> marked U (delim_seq u sep cs ce) (delim_seq u' sep' cs ce).
  Proof.
    intros u u' sep sep' cs ce A B. unfold delim_seq, Opt, Any. constructor.
    assert (O : forall b : bool, Forall2 (marked U) (if b then [TQuant sep 0 1] else []) (if b then [TQuant sep' 0 1] else [])).
    { intros []; constructor; [constructor; auto|constructor]. }
    apply Forall2_app; auto. apply Forall2_app; auto. repeat (constructor; auto).
  Qed.

  Definition agrees (o o' : outcome) (cut : Prop) (l next : list ascii) (x : bytes) : Prop :=
    o' = o \/
    o' = Abort /\ (cut \/ exists c q, x = c :: q /\ In c l) /\
    (o = Fail \/ exists v s' c q, o = Succ v s' /\ shows s' (c :: q) /\ ~ In c next).

  Theorem cut_agrees :
    (forall gs vs r t s o, peg E gs vs r t s o -> gs = [g] -> textbook E t -> forall t' next x, marked U t t' -> predictive E T t next ->
       in_range s -> shows s x -> exists o', peg E [g1] vs r t' s o' /\ agrees o o' False (starts T t) next x) /\
    (forall gs vs cut r ts acc s o, peg_seq E gs vs cut r ts acc s o -> gs = [g] -> textbook_list E ts -> cut = false ->
       forall ts' next x cut1, Forall2 (marked U) ts ts' -> predictive_seq E T ts next -> in_range s -> shows s x ->
       exists o', peg_seq E [g1] vs cut1 r ts' acc s o' /\ agrees o o' (cut1 = true) (starts T (TSeq ts)) next x) /\
    (forall gs vs r i ts s o, peg_alt E gs vs r i ts s o -> gs = [g] -> textbook_list E ts ->
       forall ts' next x, Forall2 (marked U) ts ts' -> predictive_alt E T ts next -> in_range s -> shows s x ->
       exists o', peg_alt E [g1] vs r i ts' s o' /\ agrees o o' False (flat_map (starts T) ts) next x) /\
    (forall gs vs r mn mx t acc s o, peg_rep E gs vs r mn mx t acc s o -> gs = [g] -> textbook E t ->
       forall t' next x, marked U t t' -> apart (starts T t) next -> predictive E T t (or_again mx (starts T t) next) -> in_range s -> shows s x ->
       exists o', peg_rep E [g1] vs r mn mx t' acc s o' /\ agrees o o' False (starts T t) next x).
  Proof.
    assert (SH : forall s a b, shows s a -> shows s b -> a = b) by (unfold shows; intros s a b A B; congruence).
    apply peg_mutind.
    - intros gs vs r x s pat o TP TK -> TX t' next y M PR I S. exists o. split; [|left; auto].
      rewrite (no_wrap E g TB) in TP. inversion M; subst; [constructor|]; econstructor; eauto; rewrite wrap1; auto.
    - intros gs vs r x s pat o TP TK -> TX t' next y M PR I S. exists o. split; [|left; auto].
      rewrite (no_wrap E g TB) in TP. inversion M; subst. econstructor; eauto; rewrite wrap1; auto.
    - intros gs vs r n t s o P IH Q TX t' next x M PR I S. inversion M; subst. destruct (IH eq_refl TX _ _ _ H2 PR I S) as (o' & P' & A).
      exists o'. split; auto. constructor; auto.
    - intros; contradiction.
    - intros; contradiction.
    - intros gs vs r x gs' t s o RB P IH -> TX t' next y M PR I S. inversion M; subst.
      apply (rule_body_one g) in RB as (-> & u & L & AB).
      pose proof (marked_lookup x) as X. rewrite L in X. destruct (lookup x g1) as [u1|] eqn:L1; [|contradiction].
      destruct (alias_marked _ _ AB _ X) as (t' & AB' & M').
      destruct (PG _ _ L) as (_ & P2 & P3). simpl in PR.
      destruct (alias_predictive _ _ AB _ (predictive_less _ _ _ _ _ P3 PR)) as (Q1 & Q2 & Q3).
      destruct (IH eq_refl (alias_textbook E g TB _ _ AB (proj1 TB _ _ L)) _ _ _ M' Q1 I S) as (o' & P' & A).
      exists o'. split; [econstructor; eauto; eapply rb_here; eauto|].
      destruct A as [A|(A & [[]|(c & q & B & B')] & C)]; [left; auto|right]. split; auto. split; auto. right. exists c, q.
      split; simpl; auto.
    - intros gs vs r ts s o P IH Q TX t' next x M PR I S. inversion M; subst. rewrite predictive_TSeq in PR.
      destruct (IH eq_refl TX eq_refl _ _ _ false H0 PR I S) as (o' & P' & A). exists o'. split; [constructor; auto|].
      destruct A as [A|(A & [B|B] & C)]; [left; auto|discriminate|right; auto].
    - intros gs vs r ts s o P IH Q TX t' next x M PR I S. inversion M; subst. rewrite predictive_TOneof in PR.
      destruct (IH eq_refl TX _ _ _ H0 PR I S) as (o' & P' & A). exists o'. split; [constructor; auto|auto].
    - intros gs vs r t mn mx s o P IH Q TX t' next x M PR I S. inversion M; subst. destruct PR as [P1 P2].
      destruct (IH eq_refl TX _ _ _ H3 P1 P2 I S) as (o' & P' & A). exists o'. split; [constructor; auto|auto].
    - intros gs vs r t sep a cs ce s v s' items v' P IH DI DR Q [T1 T2] t0 next x M PR I S.
      inversion M as [| | | | | | | | | |? u1 ? sep1 ? ? ? MU MS| | | |]; subst.
      destruct (predictive_delim _ _ _ _ _ _ _ _ PR) as (A1 & A2 & A3).
      destruct (IH eq_refl (textbook_delim E _ _ cs ce T1 T2) _ _ _ (delim_marked _ _ _ _ cs ce MU MS) A1 I S) as (o' & P' & A).
      destruct A as [->|(-> & [[]|(c & q & B & B')] & C)].
      + eexists. split; [eapply P_delim; eauto|left; auto].
      + exists Abort. split; [eapply P_delim_no; eauto|]. right. split; auto. split; [right; exists c, q; split; auto|].
        destruct C as [C|(v1 & s1 & c1 & q1 & C & C')]; [discriminate|]. injection C as -> ->. right. eauto 10.
    - intros gs vs r t sep a cs ce s o N P IH Q [T1 T2] t0 next x M PR I S.
      inversion M as [| | | | | | | | | |? u1 ? sep1 ? ? ? MU MS| | | |]; subst.
      destruct (predictive_delim _ _ _ _ _ _ _ _ PR) as (A1 & A2 & A3).
      destruct (IH eq_refl (textbook_delim E _ _ cs ce T1 T2) _ _ _ (delim_marked _ _ _ _ cs ce MU MS) A1 I S) as (o' & P' & A).
      destruct A as [->|(-> & [[]|(c & q & B & B')] & C)].
      + exists o. split; [eapply P_delim_no; eauto|left; auto].
      + exists Abort. split; [eapply P_delim_no; eauto|]. right. split; auto. split; [right; exists c, q; split; auto|]. auto.
    - intros; contradiction.
    - intros; contradiction.
    - intros; contradiction.
    - intros; contradiction.
    - intros; contradiction.
    - intros; contradiction.
    - intros; contradiction.
    - (* PS_done *) intros gs vs cut r acc s Q TX QC ts' next x cut1 F PR I S. inversion F; subst. eexists. split; [constructor|left; auto].
    - (* PS_next *)
      intros gs vs cut cut' r t ts acc s v s1 o P IH CM P2 IH2 -> [TX TXs] -> ts' next x cut1 F [PR PRs] I S.
      inversion F as [|? t' ? ts1 M F']; subst.
      assert (cut' = false) as -> by (destruct CM as [[C _]|[_ C]]; auto; exfalso; eapply (commits_not E g TB); eauto).
      destruct (peg_eats _ _ _ _ _ _ _ _ P TX PR I S) as (y & I1 & S1 & FD & EA).
      destruct (IH eq_refl TX _ _ _ M PR I S) as (o' & P' & A).
      destruct A as [->|(-> & [[]|(c & q & B & B')] & C)].
      + assert (D : commits [g1] t' \/ ~ commits [g1] t') by (eapply commits_dec; eauto).
        assert (K : exists cut2 : bool, (commits [g1] t' /\ cut2 = true \/ ~ commits [g1] t' /\ cut2 = cut1)) by (destruct D; eauto).
        destruct K as (cut2 & K).
        destruct (IH2 eq_refl TXs eq_refl _ _ _ cut2 F' PRs I1 S1) as (o' & P2' & A2).
        exists o'. split; [eapply PS_next; eauto; rewrite (marked_label _ _ M TX); auto|].
        destruct A2 as [A2|(-> & B & C)]; [left; auto|]. right. split; auto. split; auto.
        destruct EA as [[-> EM]|(c & p & -> & IC)].
        * destruct B as [->|(c & q & -> & B)].
          -- destruct K as [[K _]|[_ K]]; auto. exfalso. eapply commits_eats; eauto.
          -- right. exists c, q. split; auto. simpl. apply in_or_then. auto.
        * right. exists c, (p ++ y). split; auto. simpl. apply in_or_then. auto.
      + exists Abort. split; [apply PS_abort; auto|]. right. split; auto.
        split; [right; exists c, q; split; auto; simpl; apply in_or_then; auto|].
        destruct C as [C|(v1 & s2 & c1 & q1 & C & C' & NC)]; [discriminate|]. injection C as <- <-.
        pose proof (SH _ _ _ S1 C'). subst y. rewrite in_or_then in NC.
        destruct o as [w sw| |]; auto.
        * destruct (seq_eats _ _ _ _ _ _ _ _ _ P2 TXs PRs I1 S1) as (z & I2 & S2 & [[<- EM]|(c2 & p2 & EQ & IC)]).
          -- right. exists w, sw, c1, q1. repeat split; auto.
          -- injection EQ as -> ->. exfalso. auto.
        * exfalso. destruct (proj1 (proj2 (peg_ford E g OK TB)) _ _ _ _ _ _ _ _ P2 eq_refl TXs eq_refl _ I1 S1) as (b & _ & SM).
          destruct b; contradiction.
    - (* PS_fail *)
      intros gs vs cut r t ts acc s P IH -> [TX TXs] -> ts' next x cut1 F [PR PRs] I S.
      inversion F as [|? t' ? ts1 M F']; subst. destruct (IH eq_refl TX _ _ _ M PR I S) as (o' & P' & A).
      destruct A as [->|(-> & [[]|(c & q & B & B')] & C)].
      + exists (if cut1 then Abort else Fail). split; [apply PS_fail; auto|]. destruct cut1; [right; auto|left; auto].
      + exists Abort. split; [apply PS_abort; auto|]. right. split; auto. split; auto. right. exists c, q. split; auto. simpl. apply in_or_then. auto.
    - (* PS_abort *)
      intros gs vs cut r t ts acc s P IH -> [TX TXs] QC ts' next x cut1 F [PR PRs] I S.
      inversion F as [|? t' ? ts1 M F']; subst. destruct (IH eq_refl TX _ _ _ M PR I S) as (o' & P' & A).
      exists Abort. split; [|left; auto]. apply PS_abort. destruct A as [->|(-> & _)]; auto.
    - intros gs vs r i s Q TX ts' next x F PR I S. inversion F; subst. eexists. split; [constructor|left; auto].
    - (* PA_here *)
      intros gs vs r i t ts s v s' P IH -> [TX TXs] ts' next x F (PR & AP & AE & PRs) I S.
      inversion F as [|? t' ? ts1 M F']; subst. destruct (IH eq_refl TX _ _ _ M PR I S) as (o' & P' & A).
      destruct A as [->|(-> & [[]|(c & q & B & B')] & C)].
      + eexists. split; [apply PA_here; eauto|left; auto].
      + exists Abort. split; [apply PA_abort; auto|]. right. split; auto.
        split; [right; exists c, q; split; auto; simpl; apply in_or_app; auto|]. right.
        destruct C as [C|(v1 & s2 & c1 & q1 & C & C' & NC)]; [discriminate|]. injection C as <- <-. eauto 10.
    - (* PA_next *)
      intros gs vs r i t ts s o P IH P2 IH2 -> [TX TXs] ts' next x F (PR & AP & AE & PRs) I S.
      inversion F as [|? t' ? ts1 M F']; subst. destruct (IH eq_refl TX _ _ _ M PR I S) as (o' & P' & A).
      destruct A as [->|(-> & [[]|(c & q & -> & B')] & C)].
      + destruct (IH2 eq_refl TXs _ _ _ F' PRs I S) as (o' & P2' & A2). exists o'. split; [eapply PA_next; eauto|].
        destruct A2 as [A2|(-> & [[]|(c & q & B & B')] & C)]; [left; auto|]. right. split; auto. split; auto.
        right. exists c, q. split; auto. simpl. apply in_or_app. auto.
      + exists Abort. split; [apply PA_abort; auto|]. right. split; auto.
        split; [right; exists c, q; split; auto; simpl; apply in_or_app; auto|].
        destruct o as [w sw| |]; auto.
        * destruct (alt_eats _ _ _ _ _ _ _ _ _ P2 TXs PRs I S) as (z & I2 & S2 & [[<- EM]|(c2 & p2 & EQ & IC)]).
          -- right. exists w, sw, c, q. repeat split; auto. apply AE; auto.
          -- injection EQ as -> ->. exfalso. eapply AP; eauto.
        * exfalso. destruct (proj1 (proj2 (proj2 (peg_ford E g OK TB))) _ _ _ _ _ _ _ P2 eq_refl TXs _ I S) as (b & _ & SM).
          destruct b; contradiction.
    - intros gs vs r i t ts s P IH -> [TX TXs] ts' next x F (PR & AP & AE & PRs) I S.
      inversion F as [|? t' ? ts1 M F']; subst. destruct (IH eq_refl TX _ _ _ M PR I S) as (o' & P' & A).
      exists Abort. split; [|left; auto]. apply PA_abort. destruct A as [->|(-> & _)]; auto.
    - (* PR_more *)
      intros gs vs r mn mx t acc s v s1 o RM P IH P2 IH2 -> TX t' next x M AP PR I S.
      destruct (peg_eats _ _ _ _ _ _ _ _ P TX PR I S) as (y & I1 & S1 & FD & EA).
      destruct (IH eq_refl TX _ _ _ M PR I S) as (o' & P' & A).
      destruct A as [->|(-> & [[]|(c & q & B & B')] & C)].
      + destruct (IH2 eq_refl TX _ _ _ M AP PR I1 S1) as (o' & P2' & A2). exists o'. split; [eapply PR_more; eauto|].
        destruct A2 as [A2|(-> & [[]|(c & q & -> & B')] & C)]; [left; auto|]. right. split; auto. split; auto. right.
        destruct EA as [[-> EM]|(c2 & p & -> & IC)]; eauto.
      + exists Abort. split; [apply PR_abort; auto|]. right. split; auto.
        split; [right; exists c, q; split; auto|].
        destruct C as [C|(v1 & s2 & c1 & q1 & C & C' & NC)]; [discriminate|]. injection C as <- <-.
        pose proof (SH _ _ _ S1 C'). subst y.
        destruct o as [w sw| |]; auto.
        * assert (NX : ~ In c1 next) by (intros X; apply NC; destruct mx as [|[|mx]]; simpl; auto; apply in_or_app; auto).
          destruct (Nat.eq_dec mx 1) as [->|N1].
          { assert (NR : ~ room 1 (length (acc ++ [v]))) by (unfold room; rewrite app_length; simpl; lia).
            inversion P2; subst; try contradiction. destruct (Nat.leb mn (length (acc ++ [v]))); [|discriminate].
            match goal with Q : Succ _ _ = Succ _ _ |- _ => injection Q as <- <- end. right. do 4 eexists. split; [reflexivity|]. split; eauto. }
          assert (NS : ~ In c1 (starts T t)) by (intros X; apply NC; destruct mx as [|[|mx]]; simpl; try congruence; apply in_or_app; auto).
          destruct (rep_eats _ _ _ _ _ _ _ _ _ _ _ P2 TX PR I1 S1) as (z & I2 & S2 & [[<- EM]|(c2 & p2 & EQ & IC)]).
          -- right. exists w, sw, c1, q1. repeat split; auto.
          -- injection EQ as -> ->. exfalso. auto.
        * exfalso. destruct (proj2 (proj2 (proj2 (peg_ford E g OK TB))) _ _ _ _ _ _ _ _ _ P2 eq_refl TX _ I1 S1) as (b & _ & SM).
          destruct b; contradiction.
    - (* PR_stop *)
      intros gs vs r mn mx t acc s RM P IH -> TX t' next x M AP PR I S.
      destruct (IH eq_refl TX _ _ _ M PR I S) as (o' & P' & A).
      destruct A as [->|(-> & [[]|(c & q & -> & B')] & C)].
      + eexists. split; [apply PR_stop; auto|left; auto].
      + exists Abort. split; [apply PR_abort; auto|]. right. split; auto. split; [eauto|].
        destruct (Nat.leb mn (length acc)); auto. right. do 4 eexists. split; [reflexivity|]. split; [exact S|]. apply AP; auto.
    - intros gs vs r mn mx t acc s RM -> TX t' next x M AP PR I S. eexists. split; [apply PR_full; auto|left; auto].
    - intros gs vs r mn mx t acc s RM P IH -> TX t' next x M AP PR I S.
      destruct (IH eq_refl TX _ _ _ M PR I S) as (o' & P' & A).
      exists Abort. split; [|left; auto]. apply PR_abort; auto. destruct A as [->|(-> & _)]; auto.
  Qed.

  Theorem predict_means : forall r s x o, in_range s -> shows s x -> means E g r s o -> exists o', means E g1 r s o' /\
    (o' = o \/ o' = Abort /\ (o = Fail \/ exists v s' c q, o = Succ v s' /\ shows s' (c :: q) /\ ~ In c (t_next T r))).
  Proof.
    intros r s x o I S M. unfold means in *.
    destruct (proj1 cut_agrees _ _ _ _ _ _ M eq_refl Logic.I (TRule r) (t_next T r) x (m_rule U r) (incl_refl _) I S) as (o' & P & A).
    exists o'. split; auto. destruct A as [A|(A & _ & B)]; auto.
  Qed.
End Predict.
