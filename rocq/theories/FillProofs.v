(** Writing the wrapper of the enclosing grammar into nested grammars changes nothing. *)
From Verif Require Import Base Scanner Syntax Engine Resolve Compile Parse PegSpec CompileProofs PegProofs TopProofs StackSpec StackProofs ReorderProofs.
From Verif Require Import GoSpec CodegenSpec Codegen.
Local Open Scope nat_scope.

(** * Filled terms *)

Inductive fills : option term -> term -> term -> Prop :=
| fi_rule w r : r <> WrapRE -> fills w (TRule r) (TRule r)
| fi_lit w s : fills w (TS s) (TS s)
| fi_re w s : fills w (TRE s) (TRE s)
| fi_ext w s : fills w (TExtRef s) (TExtRef s)
| fi_ref w i d : fills w (TREF i d) (TREF i d)
| fi_seq w ts us : Forall2 (fills w) ts us -> fills w (TSeq ts) (TSeq us)
| fi_oneof w ts us : Forall2 (fills w) ts us -> fills w (TOneof ts) (TOneof us)
| fi_stack w ts : Forall2 (fills w) ts ts -> fills w (TStack ts) (TStack ts)
| fi_delim w t sep t' sep' a cs ce : fills w t t' -> fills w sep sep' -> fills w (TDelim t sep a cs ce) (TDelim t' sep' a cs ce)
| fi_look w t t' : fills w t t' -> fills w (TLookAhead t) (TLookAhead t')
| fi_quant w t t' mn mx : fills w t t' -> fills w (TQuant t mn mx) (TQuant t' mn mx)
| fi_named w n t t' : fills w t t' -> fills w (TNamed n t) (TNamed n t')
| fi_cut w t t' : fills w t t' -> fills w (TCut t) (TCut t')
| fi_scoped w t g t' g' more : fills (own_or w g) t t' ->
    Forall2 (fun kv kv' : string * term => fst kv = fst kv' /\ (fst kv = WrapRE -> wrapper (snd kv)) /\ fills (own_or w g) (snd kv) (snd kv')) g g' ->
    more = [] \/ (exists x, w = Some x /\ wrapper x /\ lookup WrapRE g = None /\ existsb (fun kv => is_stack (snd kv)) g = false /\ more = [(WrapRE, x)]) ->
    fills w (TScoped t g) (TScoped t' (g' ++ more)).
Definition rule_fills (w : option term) (kv kv' : string * term) : Prop :=
  fst kv = fst kv' /\ (fst kv = WrapRE -> wrapper (snd kv)) /\ fills w (snd kv) (snd kv').

Lemma Forall_Forall2 : forall A B (P : A -> Prop) (f : A -> B) (R : A -> B -> Prop) l,
  (forall x, P x -> R x (f x)) -> Forall P l -> Forall2 R l (map f l).
Proof. intros A B P f R l H F. induction F; simpl; auto. Qed.
Lemma Forall_and_imp : forall A (P Q R : A -> Prop) l, Forall P l -> Forall Q l -> (forall x, P x -> Q x -> R x) -> Forall R l.
Proof. intros A P Q R l FP FQ H. induction FP; inversion FQ; subst; auto. Qed.
Lemma Forall2_self : forall A (R : A -> A -> Prop) l, Forall (fun x => R x x) l -> Forall2 R l l.
Proof. induction 1; auto. Qed.

Lemma steady_fills_self : forall t w, steady t -> fills w t t.
Proof.
  induction t using term_ind'; intros w C; inversion C; subst; try (constructor; auto; fail).
  - constructor. apply Forall2_self. eapply Forall_and_imp; [exact H|exact H1|]. cbn. auto.
  - constructor. apply Forall2_self. eapply Forall_and_imp; [exact H|exact H1|]. cbn. auto.
  - constructor. apply Forall2_self. eapply Forall_and_imp; [exact H|exact H1|]. cbn. auto.
  - rewrite <- (app_nil_r g) at 2. match goal with X : steady_grammar _ |- _ => inversion X; subst end.
    constructor; auto. apply Forall2_self. eapply Forall_and_imp; [exact H|eassumption|]. cbn. intros x P [Q1 Q2]. auto.
Qed.

Definition wrap_ok (w : option term) : Prop := forall x, w = Some x -> wrapper x.
Lemma own_or_ok : forall w g, wrap_ok w -> steady_grammar g -> wrap_ok (own_or w g).
Proof.
  intros w g W C x. unfold own_or. destruct (lookup WrapRE g) as [y|] eqn:L; [|apply W]. intros H. injection H as <-. inversion C as [? F]; subst.
  apply lookup_In in L. rewrite Forall_forall in F. apply (F _ L). reflexivity.
Qed.
Lemma filled_fills : forall t w, wrap_ok w -> steady t -> fills w t (filled w t).
Proof.
  induction t using term_ind'; intros w W C; inversion C; subst; cbn [filled]; try (constructor; auto; fail).
  - constructor. eapply Forall_Forall2; [|eapply Forall_and_imp; [exact H|exact H1|]]; [|cbn; intros x P Q; exact (P w W Q)]. auto.
  - constructor. eapply Forall_Forall2; [|eapply Forall_and_imp; [exact H|exact H1|]]; [|cbn; intros x P Q; exact (P w W Q)]. auto.
  - apply steady_fills_self. auto.
  - assert (W' : wrap_ok (own_or w g)) by (apply own_or_ok; auto). fold (own_or w g).
    constructor; auto.
    + match goal with X : steady_grammar _ |- _ => inversion X; subst end.
      eapply (Forall_Forall2 _ _ _ (fun kv : string * term => (fst kv, filled (own_or w g) (snd kv)))); [|eapply Forall_and_imp; [exact H|eassumption|]]; [|cbn; intros x P [Q1 Q2]; exact (conj Q1 (P _ W' Q2))]. cbn. intros x [? ?]. auto.
    + unfold inherited. destruct w as [x|]; auto. destruct (lookup WrapRE g) eqn:L; auto. destruct (existsb _ g) eqn:X; auto. right. exists x. repeat split; auto.
Qed.
Lemma fills_list : forall (P : term -> term -> Prop) w ts us, Forall (fun t => forall t', fills w t t' -> P t t') ts -> Forall2 (fills w) ts us -> Forall2 P ts us.
Proof. intros P w ts us H F. revert H. induction F; intros X; inversion X; subst; auto. Qed.
Lemma Forall_at : forall A B (P : A -> B -> Prop) (v : B) l, Forall (fun x => forall y, P x y) l -> Forall (fun x => P x v) l.
Proof. intros A B P v l F. induction F; auto. Qed.
Lemma fills_inherits : forall t w t', fills w t t' -> inherits w t t'.
Proof.
  induction t using term_ind'; intros w t' F; inversion F; subst; try (constructor; auto; fail).
  - constructor. eapply fills_list; [|eassumption]. eapply Forall_at in H. exact H.
  - constructor. eapply fills_list; [|eassumption]. eapply Forall_at in H. exact H.
  - match goal with X : Forall2 _ g g', Y : _ \/ _ |- _ => rename X into FG; rename Y into M end. constructor; auto.
    + clear -H FG. revert g' FG. generalize (own_or w g). intros v. induction H; intros g' F; inversion F as [|? ? ? ? (? & ? & ?)]; subst; [constructor|constructor; [split|]; auto].
    + destruct M as [->|(x & -> & _ & L & _ & ->)]; eauto 6.
Qed.

(** * Stacks *)

Lemma fills_stack : forall w t t', fills w t t' -> is_stack t' = is_stack t /\ (is_stack t = true -> t' = t).
Proof. intros w t t' F. destruct F; simpl; split; auto; discriminate. Qed.
Lemma resolve_fills : forall t w x u, fills w t t -> x <> WrapRE -> term_resolve StackDelim x t = COk u -> fills w u u.
Proof.
  induction t using term_ind'; intros w x u F NE R; cbn [term_resolve] in R; inversion F; subst; try discriminate;
    try (injection R as <-; auto; fail);
    try (apply cbind_ok in R as (a1 & A1 & R); try apply cbind_ok in R as (a2 & A2 & R); injection R as <-; constructor; eauto; fail).
  - injection R as <-. constructor. destruct (String.eqb _ _); auto.
  - apply cbind_ok in R as (us & US & R). injection R as <-. constructor. apply ctraverse_ok in US. clear F.
    match goal with X : Forall2 (fills w) _ _ |- _ => revert X end. revert us US. induction H as [|t ts HT FT IHT]; intros us US FF; inversion US; inversion FF; subst; constructor; eauto.
  - apply cbind_ok in R as (us & US & R). injection R as <-. constructor. apply ctraverse_ok in US. clear F.
    match goal with X : Forall2 (fills w) _ _ |- _ => revert X end. revert us US. induction H as [|t ts HT FT IHT]; intros us US FF; inversion US; inversion FF; subst; constructor; eauto.
  - eauto.
Qed.
Lemma aset_fills : forall w k u g g', k <> WrapRE -> fills w u u -> Forall2 (rule_fills w) g g' -> Forall2 (rule_fills w) (aset k u g) (aset k u g').
Proof.
  intros w k u g g' NE U F. induction F as [|[a t] [b t'] g g' (E & WR & X) F IH]; cbn [aset].
  - constructor; auto. split; auto. split; auto. intros EQ. contradiction.
  - cbn in E, WR, X. subst b. destruct (String.eqb k a); constructor; auto; split; auto. split; auto. intros EQ. contradiction.
Qed.
Lemma layer_not_wrap : forall r n j, r <> WrapRE -> layer_name r n j <> WrapRE.
Proof.
  intros r n j NE. unfold layer_name. cbv zeta. destruct (Nat.eqb _ 0); auto. clear. intros H.
  assert (A : In "@"%char (bs (r ++ StackDelim ++ dec (Nat.modulo j n)))).
  { unfold bs. clear H. induction r as [|c r IH]; [left; reflexivity|right; exact IH]. }
  rewrite H in A. cbn in A. repeat (destruct A as [A|A]; [discriminate|]). auto.
Qed.
Lemma resolve_layers_fills : forall w r n ls i old g g' h, r <> WrapRE -> old <> WrapRE -> Forall2 (fills w) ls ls -> Forall2 (rule_fills w) g g' ->
  resolve_layers r n i old ls g = COk h -> exists h', resolve_layers r n i old ls g' = COk h' /\ Forall2 (rule_fills w) h h' /\ lookup WrapRE h = lookup WrapRE g.
Proof.
  intros w r n. induction ls as [|l ls IH]; intros i old g g' h NR NO FL F H; cbn [resolve_layers] in *.
  - injection H as <-. eauto.
  - inversion FL; subst. apply cbind_ok in H as (t & T & H). rewrite T. cbn [cbind]. pose proof (layer_not_wrap r n (i + 1) NR) as NL.
    assert (FA : Forall2 (rule_fills w) (aset old t g) (aset old t g')) by (apply aset_fills; auto; eapply resolve_fills; eauto).
    destruct (IH _ _ _ _ _ NR NL H5 FA H) as (h' & A & B & C). exists h'. split; auto. split; auto. rewrite C. apply lookup_aset_neq. auto.
Qed.
Lemma resolve_loop_fills : forall w todo todo' g g' h, Forall2 (rule_fills w) todo todo' -> Forall2 (rule_fills w) g g' ->
  resolve_stacks_loop todo g = COk h -> exists h', resolve_stacks_loop todo' g' = COk h' /\ Forall2 (rule_fills w) h h' /\ lookup WrapRE h = lookup WrapRE g.
Proof.
  intros w todo todo' g g' h T. revert g g' h. induction T as [|[a t] [b t'] todo todo' (E & WR & X) T IH]; intros g g' h F H; cbn [resolve_stacks_loop] in *.
  - injection H as <-. eauto.
  - cbn in E, WR, X. subst b. destruct X; try (apply IH; auto; fail).
    apply cbind_ok in H as (g1 & G1 & H). assert (NE : a <> WrapRE).
    { intros ->. destruct (WR eq_refl) as [(s & [|])|(us & ? & _)]; discriminate. }
    destruct (resolve_layers_fills _ _ _ _ _ _ _ _ _ NE NE H0 F G1) as (g1' & -> & F1 & L1). cbn [cbind].
    destruct (IH _ _ _ F1 H) as (h' & A & B & C). exists h'. rewrite C, L1. auto.
Qed.
Lemma fills_has_stack : forall w g g', Forall2 (rule_fills w) g g' -> existsb (fun kv => is_stack (snd kv)) g' = existsb (fun kv => is_stack (snd kv)) g.
Proof. induction 1 as [|[a t] [b t'] g g' (E & WR & X) F IH]; simpl; auto. rewrite IH. cbn in X. destruct (fills_stack _ _ _ X) as [-> _]. auto. Qed.
Lemma resolve_stacks_fills : forall w g g' h, Forall2 (rule_fills w) g g' -> resolve_stacks g = COk h ->
  exists h', resolve_stacks g' = COk h' /\ Forall2 (rule_fills w) h h' /\ lookup WrapRE h = lookup WrapRE g.
Proof.
  intros w g g' h F H. unfold resolve_stacks in *. rewrite (fills_has_stack _ _ _ F). destruct (existsb _ g).
  - eapply resolve_loop_fills; eauto.
  - injection H as <-. eauto.
Qed.

(** * Preparing *)

Lemma wrapper_fills : forall w x y, wrapper x -> fills w x y -> y = x.
Proof.
  intros w x y [(s & [-> | ->])|(ts & -> & F)] H; inversion H; subst; auto. f_equal. clear H. match goal with X : Forall2 _ _ _ |- _ => induction X; auto end. inversion F; subst. f_equal; auto.
  match goal with X : token_term _ |- _ => destruct X as (s & [-> | ->]) end; match goal with X : fills _ _ _ |- _ => inversion X; auto end.
Qed.
Lemma wrapper_prep : forall x, wrapper x -> prep x = COk x.
Proof.
  intros x [(s & [-> | ->])|(ts & -> & F)]; auto. cbn [prep]. replace (ctraverse prep ts) with (COk ts); auto.
  induction F as [|t ts (s & [-> | ->]) F IH]; auto; cbn [ctraverse prep cbind]; rewrite <- IH; auto.
Qed.
Lemma prep_rules_fills : forall w g g' g1, Forall2 (rule_fills w) g g' ->
  Forall (fun kv : string * term => forall w t' u, fills w (snd kv) t' -> prep (snd kv) = COk u -> exists u', prep t' = COk u' /\ fills w u u') g ->
  prep_rules g = COk g1 -> exists g1', prep_rules g' = COk g1' /\ Forall2 (rule_fills w) g1 g1' /\ lookup WrapRE g1 = lookup WrapRE g /\
    existsb (fun kv => is_stack (snd kv)) g1 = existsb (fun kv => is_stack (snd kv)) g.
Proof.
  intros w g g' g1 F. revert g1. unfold prep_rules. induction F as [|[a t] [b t'] g g' (E & WR & X) F IH]; intros g1 P H; cbn [ctraverse] in *.
  - injection H as <-. exists []. auto.
  - cbn in E, WR, X. subst b. inversion P as [|? ? P1 P2]; subst. cbn [fst snd] in *. apply cbind_ok in H as (y & Y & H). apply cbind_ok in Y as (u & U & Y). injection Y as <-.
    apply cbind_ok in H as (ys & YS & H). injection H as <-. destruct (P1 _ _ _ X U) as (u' & U' & FU). destruct (IH _ P2 YS) as (g1' & G1 & FG & L & ST).
    rewrite U'. cbn [cbind]. rewrite G1. cbn [cbind]. eexists. split; [reflexivity|]. split; [|split].
    + constructor; auto. split; auto. split; auto. cbn. intros EQ. specialize (WR EQ). rewrite (wrapper_prep _ WR) in U. injection U as <-. auto.
    + cbn [lookup]. destruct (String.eqb_spec WrapRE a) as [EQ|]; auto. specialize (WR (eq_sym EQ)). rewrite (wrapper_prep _ WR) in U. injection U as <-. auto.
    + cbn [existsb snd]. rewrite ST. destruct (prep_stack _ _ U) as [-> _]. auto.
Qed.
Lemma existsb_stack_none : forall g, existsb (fun kv : string * term => is_stack (snd kv)) g = false -> resolve_stacks g = COk g.
Proof. intros g H. unfold resolve_stacks. rewrite H. auto. Qed.
Lemma prep_app : forall g h, (forall kv, In kv h -> prep (snd kv) = COk (snd kv)) -> forall g1, prep_rules g = COk g1 -> prep_rules (g ++ h) = COk (g1 ++ h).
Proof.
  intros g h H. unfold prep_rules. induction g as [|[a t] g IH]; intros g1 P; cbn [ctraverse app] in *.
  - injection P as <-. cbn. induction h as [|[a t] h IHh]; auto. cbn [ctraverse fst snd]. pose proof (H (a, t) (or_introl eq_refl)) as X. cbn in X. rewrite X. cbn [cbind]. rewrite IHh; auto. intros; apply H; right; auto.
  - apply cbind_ok in P as (y & -> & P). apply cbind_ok in P as (ys & YS & P). injection P as <-. cbn [cbind]. rewrite (IH _ YS). auto.
Qed.
Lemma prep_fills : forall t w t' u, fills w t t' -> prep t = COk u -> exists u', prep t' = COk u' /\ fills w u u'.
Proof.
  assert (LIST : forall w ts, Forall (fun t => forall w t' u, fills w t t' -> prep t = COk u -> exists u', prep t' = COk u' /\ fills w u u') ts ->
    forall ts', Forall2 (fills w) ts ts' -> forall us, ctraverse prep ts = COk us -> exists us', ctraverse prep ts' = COk us' /\ Forall2 (fills w) us us').
  { intros w ts H. induction H as [|t ts HT FT IH]; intros ts' F us P; inversion F; subst; cbn [ctraverse] in *.
    - injection P as <-. exists []. auto.
    - apply cbind_ok in P as (x & X & P). apply cbind_ok in P as (xs & XS & P). injection P as <-. destruct (HT _ _ _ H1 X) as (x' & -> & A). destruct (IH _ H3 _ XS) as (xs' & XS' & B).
      cbn [cbind]. rewrite XS'. cbn [cbind]. eexists. split; [reflexivity|]. constructor; auto. }
  induction t using term_ind'; intros w t' u F P; cbn [prep] in P; inversion F; subst; cbn [prep];
    try (injection P as <-; eexists; split; [reflexivity|constructor; auto]; fail).
  - apply cbind_ok in P as (xs & XS & P). injection P as <-. match goal with X : Forall2 (fills w) _ _ |- _ => destruct (LIST _ _ H _ X _ XS) as (xs' & -> & B) end. eexists. split; [reflexivity|constructor; auto].
  - apply cbind_ok in P as (xs & XS & P). injection P as <-. match goal with X : Forall2 (fills w) _ _ |- _ => destruct (LIST _ _ H _ X _ XS) as (xs' & -> & B) end. eexists. split; [reflexivity|constructor; auto].
  - apply cbind_ok in P as (x & X & P). apply cbind_ok in P as (y & Y & P). injection P as <-. edestruct IHt1 as (x' & -> & A); eauto. edestruct IHt2 as (y' & -> & B); eauto. eexists. split; [reflexivity|constructor; auto].
  - apply cbind_ok in P as (x & X & P). injection P as <-. edestruct IHt as (x' & -> & A); eauto. eexists. split; [reflexivity|constructor; auto].
  - apply cbind_ok in P as (x & X & P). injection P as <-. edestruct IHt as (x' & -> & A); eauto. eexists. split; [reflexivity|constructor; auto].
  - apply cbind_ok in P as (x & X & P). injection P as <-. edestruct IHt as (x' & -> & A); eauto. eexists. split; [reflexivity|constructor; auto].
  - rename g' into gg. match goal with X : Forall2 _ g gg, Y : _ \/ _, Z : fills _ t _ |- _ => rename X into FG; rename Y into M; rename Z into FT end.
    apply cbind_ok in P as (x & X & P). apply cbind_ok in P as (g1 & G1 & P). apply cbind_ok in P as (g2 & G2 & P). injection P as <-.
    destruct (IHt _ _ _ FT X) as (x' & -> & A). cbn [cbind].
    destruct (prep_rules_fills _ _ _ _ FG H G1) as (g1' & G1' & F1 & L1 & ST).
    destruct (resolve_stacks_fills _ _ _ _ F1 G2) as (g2' & G2' & F2 & L2).
    assert (OW : own_or w g2 = own_or w g) by (unfold own_or; rewrite L2, L1; auto).
    destruct M as [->|(wx & -> & WX & LN & NS & ->)].
    + rewrite app_nil_r. unfold prep_rules in G1'. rewrite G1'. cbn [cbind]. rewrite G2'. cbn [cbind]. eexists. split; [reflexivity|].
      rewrite <- (app_nil_r g2'). constructor; auto; rewrite OW; auto.
    + assert (PA : prep_rules (gg ++ [(WrapRE, wx)]) = COk (g1' ++ [(WrapRE, wx)])).
      { apply prep_app; auto. intros kv [<-|[]]. apply wrapper_prep; auto. }
      unfold prep_rules in PA. rewrite PA. cbn [cbind].
      assert (NS1 : existsb (fun kv : string * term => is_stack (snd kv)) g1 = false) by congruence.
      rewrite (existsb_stack_none g1 NS1) in G2. injection G2 as <-.
      assert (NS2 : existsb (fun kv : string * term => is_stack (snd kv)) (g1' ++ [(WrapRE, wx)]) = false).
      { rewrite existsb_app, (fills_has_stack _ _ _ F1), NS1. cbn. destruct WX as [(s & [-> | ->])|(ts & -> & _)]; auto. }
      rewrite (existsb_stack_none _ NS2). cbn [cbind]. eexists. split; [reflexivity|].
      constructor; try (rewrite OW; auto; fail). right. exists wx. repeat split; auto. congruence.
  - apply cbind_ok in P as (x & X & P). injection P as <-. edestruct IHt as (x' & -> & A); eauto. eexists. split; [reflexivity|constructor; auto].
Qed.

(** * Parsers with more rules *)

Inductive pmore : parser -> parser -> Prop :=
| mo_rule : forall n r, r <> WrapRE -> pmore (PRule n r) (PRule n r)
| mo_link : forall r, r <> WrapRE -> pmore (PLink r) (PLink r)
| mo_s : forall r x re, pmore (PS r x re) (PS r x re)
| mo_re : forall r x re, pmore (PRE r x re) (PRE r x re)
| mo_ref : forall i d, pmore (PREF i d) (PREF i d)
| mo_ext : forall x, pmore (PExt x) (PExt x)
| mo_seq : forall r ids ps ps', Forall2 pmore ps ps' -> pmore (PSeq r ids ps) (PSeq r ids ps')
| mo_oneof : forall r ps ps', Forall2 pmore ps ps' -> pmore (POneof r ps) (POneof r ps')
| mo_delim : forall r a cs ce p p', pmore p p' -> pmore (PDelim r a cs ce p) (PDelim r a cs ce p')
| mo_look : forall r p p', pmore p p' -> pmore (PLook r p) (PLook r p')
| mo_quant : forall r mn mx p p', pmore p p' -> pmore (PQuant r mn mx p) (PQuant r mn mx p')
| mo_cut : forall p p', pmore p p' -> pmore (PCut p) (PCut p')
| mo_scoped : forall rs rs' p p', rules_more rs rs' -> pmore p p' -> pmore (PScoped rs p) (PScoped rs' p')
with rules_more : list (string * parser) -> list (string * parser) -> Prop :=
| rmo : forall rs rs', (forall r, r <> WrapRE -> lookup r rs = None -> lookup r rs' = None) ->
    (forall r q, lookup r rs = Some q -> exists q', lookup r rs' = Some q' /\ pmore q q') -> rules_more rs rs'.

Lemma pmore_reg : forall p p', pmore p p' -> pmore (reg p) (reg p').
Proof. intros p p' H. destruct H; simpl; constructor; auto. Qed.

Lemma resolve_link_more : forall e e' r, r <> WrapRE -> Forall2 rules_more e e' ->
  match resolve_link e r with
  | Some (q, e1) => exists q' e1', resolve_link e' r = Some (q', e1') /\ pmore q q' /\ Forall2 rules_more e1 e1'
  | None => resolve_link e' r = None
  end.
Proof.
  intros e e' r NW H. induction H as [|rs rs' e e' RS F IH]; simpl; auto.
  inversion RS as [? ? N S]; subst. destruct (lookup r rs) as [q|] eqn:L.
  - destruct (S _ _ L) as (q' & L' & P). rewrite L'. do 2 eexists. split; eauto.
  - rewrite (N _ NW L). destruct (resolve_link e r) as [[q e1]|]; auto.
Qed.

Lemma is_cut0_more : forall p p', pmore p p' -> is_cut0 p = is_cut0 p'.
Proof.
  induction p using parser_ind'; intros p' S; inversion S; subst; simpl; auto.
Qed.
Lemma is_cut_more : forall e e' p p', Forall2 rules_more e e' -> pmore p p' -> is_cut e p = is_cut e' p'.
Proof.
  intros e e' p p' E S. destruct p; inversion S; subst; auto; try (apply is_cut0_more; auto; fail).
  simpl. match goal with X : t <> WrapRE |- _ => pose proof (resolve_link_more e e' t X E) as R end. destruct (resolve_link e t) as [[q e1]|].
  - destruct R as (q' & e1' & -> & Q & _). apply is_cut0_more; auto.
  - rewrite R. auto.
Qed.

Section Run.
  Variable c : config.

  Lemma parse_more : forall f e e' p p' sc s k, Forall2 rules_more e e' -> pmore p p' ->
    parse c f e p sc s k = parse c f e' p' sc s k.
  Proof.
    induction f as [|f IH]; intros e e' p p' sc s k EE P; [reflexivity|].
    assert (SEQ : forall rule ps ps', Forall2 pmore ps ps' -> forall ids sc s k acc,
      seq_loop c (parse c f e) (is_cut e) rule ids ps sc s k acc = seq_loop c (parse c f e') (is_cut e') rule ids ps' sc s k acc).
    { induction 1 as [|p1 p2 ps ps' S F IHF]; intros; cbn [seq_loop]; auto.
      rewrite (IH e e' p1 p2) by auto. rewrite (is_cut_more e e' p1 p2) by auto.
      destruct (parse c f e' p2 sc0 s0 k0) as [[[v|er| |] s1] k1]; auto.
      destruct (if is_cut e' p2 then _ else _) as [sc1 k2]. auto. }
    assert (ALT : forall rule ps ps', Forall2 pmore ps ps' -> forall i sc pc mc s fur k,
      oneof_loop (parse c f e) rule i ps sc pc mc s fur k = oneof_loop (parse c f e') rule i ps' sc pc mc s fur k).
    { induction 1 as [|p1 p2 ps ps' S F IHF]; intros; cbn [oneof_loop]; auto.
      rewrite (IH e e' p1 p2) by auto.
      destruct (parse c f e' p2 sc0 s0 k0) as [[[v|er| |] s1] k1]; auto. destruct (not_my_fatal er mc); auto. }
    assert (REP : forall rule mn mx p1 p2, pmore p1 p2 -> forall n sc pc mc s k acc,
      quant_loop (parse c f e) n rule mn mx p1 sc pc mc s k acc = quant_loop (parse c f e') n rule mn mx p2 sc pc mc s k acc).
    { intros rule mn mx p1 p2 S. induction n as [|n IHn]; intros; cbn [quant_loop]; auto.
      rewrite (IH e e' p1 p2) by auto. destruct (_ || _); auto.
      destruct (parse c f e' p2 sc0 s0 k0) as [[[v|er| |] s1] k1]; auto. }
    assert (ESC : forall sc s k f1 f2, f1 tt = f2 tt -> with_escape c sc s k f1 = with_escape c sc s k f2).
    { intros. unfold with_escape. destruct (cf_esc c); auto. destruct (eat_regexp _ _ _ _); auto. }
    destruct P; cbn [parse]; auto; try (apply ESC).
    - match goal with X : r <> WrapRE |- _ => pose proof (resolve_link_more e e' r X EE) as R end. destruct (resolve_link e r) as [[q e1]|].
      + destruct R as (q' & e1' & -> & Q & E1). auto.
      + rewrite R. auto.
    - destruct (replace_cut c false sc k) as [[[? ?] ?] ?]. auto.
    - rewrite (IH e e' p p') by auto. auto.
    - rewrite (IH e e' p p') by auto. auto.
    - destruct (replace_cut c false sc k) as [[[? ?] ?] ?]. auto.
  Qed.

End Run.

(** * Compiling *)

Lemma ident_fills : forall t w t', fills w t t' -> ident_from_term t = ident_from_term t'.
Proof. induction t using term_ind'; intros w t' F; inversion F; subst; simpl; eauto. destruct (String.eqb _ ""); eauto. Qed.
Lemma idents_fills : forall w ts ts', Forall2 (fills w) ts ts' -> map ident_from_term ts = map ident_from_term ts'.
Proof. induction 1 as [|a b ts ts' A F IH]; simpl; auto. rewrite IH, (ident_fills _ _ _ A). auto. Qed.

Definition fn_more (f f' : string -> cres parser) : Prop :=
  forall rule p, f rule = COk p -> exists p', f' rule = COk p' /\ pmore p p'.

Lemma fills_lookup : forall w g g' r, Forall2 (rule_fills w) g g' ->
  match lookup r g with
  | Some t => exists t', lookup r g' = Some t' /\ fills w t t' /\ (r = WrapRE -> wrapper t)
  | None => lookup r g' = None
  end.
Proof.
  intros w g g' r F. induction F as [|[a t] [b t'] g g' (E & WR & X) F IH]; cbn [lookup]; auto. cbn in E, WR, X. subst b.
  destruct (String.eqb_spec r a) as [->|]; eauto.
Qed.
Lemma lookup_app : forall A r (g h : list (string * A)), lookup r (g ++ h) = match lookup r g with Some t => Some t | None => lookup r h end.
Proof. intros A r g h. induction g as [|[a t] g IH]; simpl; auto. destruct (String.eqb r a); auto. Qed.

Section Compile.
  Variable E : engine.

  Lemma chase_fills : forall w g g' more, Forall2 (rule_fills w) g g' ->
    Forall (fun kv : string * term => forall t', fills w (snd kv) t' -> fn_more (term_parser E (snd kv) w) (term_parser E t' w)) g ->
    forall n n' t t' f f' h, n <= n' -> fills w t t' -> fn_more f f' -> chase n (rule_fns E w g) t f = COk h ->
    exists h', chase n' (rule_fns E w (g' ++ more)) t' f' = COk h' /\ fn_more h h'.
  Proof.
    intros w g g' more F IH. induction n as [|n IHn]; intros n' t t' f f' h LE R FS H; destruct R; simpl in H; try discriminate;
      try (injection H as <-; exists f'; split; auto; destruct n'; reflexivity).
    destruct n' as [|n']; [lia|]. rewrite lookup_rule_fns in H. cbn [chase]. rewrite lookup_rule_fns, lookup_app. pose proof (fills_lookup _ _ _ r F) as L.
    destruct (lookup r g) as [t|] eqn:LG; simpl in H; [|discriminate]. destruct L as (t' & -> & FT & _). cbn [option_map].
    eapply IHn; [lia|exact FT| |exact H]. apply lookup_In in LG. rewrite Forall_forall in IH. exact (IH _ LG _ FT).
  Qed.
  Lemma rules_app : forall m all g h, ctraverse (fun kv : string * (term * (string -> cres parser)) => let '(r, (t, f)) := kv in cbind (chase m all t f) (fun f' => cbind (f' r) (fun p => COk (r, p)))) (g ++ h)
    = cbind (ctraverse (fun kv : string * (term * (string -> cres parser)) => let '(r, (t, f)) := kv in cbind (chase m all t f) (fun f' => cbind (f' r) (fun p => COk (r, p)))) g)
       (fun a => cbind (ctraverse (fun kv : string * (term * (string -> cres parser)) => let '(r, (t, f)) := kv in cbind (chase m all t f) (fun f' => cbind (f' r) (fun p => COk (r, p)))) h) (fun b => COk (a ++ b))).
  Proof.
    intros m all g h. induction g as [|[r [t f]] g IH]; cbn [app ctraverse].
    - cbn [cbind]. destruct (ctraverse _ h); auto.
    - destruct (chase m all t f) as [f'| |]; auto. cbn [cbind]. destruct (f' r) as [p| |]; auto. cbn [cbind]. rewrite IH.
      destruct (ctraverse _ g) as [a| |]; auto. cbn [cbind]. destruct (ctraverse _ h); auto.
  Qed.
  (** The compiled rules, one by one. *)
  Lemma rules_fills : forall w g g' more, Forall2 (rule_fills w) g g' ->
    Forall (fun kv : string * term => forall t', fills w (snd kv) t' -> fn_more (term_parser E (snd kv) w) (term_parser E t' w)) g ->
    forall rs, compile_rules (rule_fns E w g) = COk rs ->
    more = [] \/ (exists x, more = [(WrapRE, x)] /\ wrapper x /\ exists p, term_parser E x w WrapRE = COk p) ->
    exists rs' rs2, compile_rules (rule_fns E w (g' ++ more)) = COk (rs' ++ rs2) /\ keys rs2 = keys more /\
      Forall2 (fun kv kv' : string * parser => fst kv = fst kv' /\ pmore (snd kv) (snd kv')) rs rs'.
  Proof.
    intros w g g' more F IH rs H M. unfold compile_rules in *.
    assert (LEN : S (length (rule_fns E w g)) <= S (length (rule_fns E w (g' ++ more)))).
    { unfold rule_fns. rewrite !map_length, app_length. rewrite (Forall2_len _ _ _ F). lia. }
    pose proof (fun t t' f f' h => chase_fills w g g' more F IH _ _ t t' f f' h LEN) as CH.
    assert (ALL : rule_fns E w (g' ++ more) = rule_fns E w g' ++ rule_fns E w more) by (unfold rule_fns; apply map_app).
    set (n := S (length (rule_fns E w g))) in *. set (n' := S (length (rule_fns E w (g' ++ more)))) in *.
    set (fs := rule_fns E w g) in H, CH. set (fs' := rule_fns E w (g' ++ more)) in CH.
    replace (ctraverse _ (rule_fns E w (g' ++ more))) with (ctraverse (fun kv : string * (term * (string -> cres parser)) => let '(r, (t, f)) := kv in cbind (chase n' fs' t f) (fun f' => cbind (f' r) (fun p => COk (r, p)))) (rule_fns E w (g' ++ more))) by reflexivity.
    rewrite ALL, rules_app.
    assert (G : forall l l' rs, Forall2 (rule_fills w) l l' -> Forall (fun kv : string * term => forall t', fills w (snd kv) t' -> fn_more (term_parser E (snd kv) w) (term_parser E t' w)) l ->
      ctraverse (fun kv : string * (term * (string -> cres parser)) => let '(r, (t, f)) := kv in cbind (chase n fs t f) (fun f' => cbind (f' r) (fun p => COk (r, p)))) (rule_fns E w l) = COk rs ->
      exists rs', ctraverse (fun kv : string * (term * (string -> cres parser)) => let '(r, (t, f)) := kv in cbind (chase n' fs' t f) (fun f' => cbind (f' r) (fun p => COk (r, p)))) (rule_fns E w l') = COk rs' /\
      Forall2 (fun kv kv' : string * parser => fst kv = fst kv' /\ pmore (snd kv) (snd kv')) rs rs').
    { clear -CH. intros l l' rs F. revert rs. unfold rule_fns. induction F as [|[a t] [b t'] l l' (EQ & _ & X) F IHF]; intros rs P H; cbn [map ctraverse fst snd] in *.
      - injection H as <-. exists []. auto.
      - cbn in EQ, X. subst b. inversion P as [|? ? P1 P2]; subst. cbn [snd] in P1.
        apply cbind_ok in H as (y & Y & H). apply cbind_ok in Y as (h & HH & Y). apply cbind_ok in Y as (p & HP & Y). injection Y as <-. apply cbind_ok in H as (ys & YS & H). injection H as <-.
        destruct (CH _ _ _ _ _ X (P1 _ X) HH) as (h' & -> & FM). cbn [cbind]. destruct (FM _ _ HP) as (p' & -> & PM). cbn [cbind].
        destruct (IHF _ P2 YS) as (rs' & -> & FR). cbn [cbind]. eexists. split; [reflexivity|]. constructor; auto. }
    destruct (G _ _ _ F IH H) as (rs' & -> & FR). cbn [cbind].
    destruct M as [->|(x & -> & WX & p & P)].
    - exists rs', []. cbn. auto.
    - cbn [rule_fns map ctraverse fst snd]. replace (chase n' fs' x (term_parser E x w)) with (COk (term_parser E x w)) by (destruct WX as [(s & [-> | ->])|(ts & -> & _)]; destruct n'; reflexivity).
      cbn [cbind]. rewrite P. cbn [cbind]. exists rs', [(WrapRE, p)]. auto.
  Qed.
  Lemma rules_more_lists : forall rs rs' rs2, Forall2 (fun kv kv' : string * parser => fst kv = fst kv' /\ pmore (snd kv) (snd kv')) rs rs' ->
    (forall r, In r (keys rs2) -> r = WrapRE) -> rules_more rs (rs' ++ rs2).
  Proof.
    intros rs rs' rs2 F K.
    assert (L : forall r, match lookup r rs with Some q => exists q', lookup r rs' = Some q' /\ pmore q q' | None => lookup r rs' = None end).
    { intros r. clear K. induction F as [|[a p] [b p'] rs rs' [EQ X] F IH]; cbn [lookup]; auto. cbn in EQ, X. subst b. destruct (String.eqb r a); eauto. }
    constructor; intros r.
    - intros NW LN. specialize (L r). rewrite LN in L. rewrite lookup_app, L. destruct (lookup r rs2) eqn:X; auto. exfalso. apply NW, K. apply lookup_In in X. apply (in_map fst) in X. auto.
    - intros q LS. specialize (L r). rewrite LS in L. destruct L as (q' & L & P). exists q'. rewrite lookup_app, L. auto.
  Qed.
  Lemma scoped_result_more : forall rs rs' p p', rules_more rs rs' -> pmore p p' -> pmore (scoped_result rs p) (scoped_result rs' p').
  Proof.
    intros rs rs' p p' RS P. inversion RS as [? ? N S]; subst. destruct P; simpl; try (constructor; auto; constructor; auto; fail).
    destruct (lookup r rs) as [q|] eqn:L.
    - destruct (S _ _ L) as (q' & -> & Q). destruct Q; repeat (constructor; auto).
    - rewrite (N _ H L). constructor. auto.
  Qed.
  Lemma pmore_token : forall w x rule p, token_term x -> term_parser E x w rule = COk p -> pmore p p.
  Proof.
    intros w x rule p (s & [-> | ->]) H; cbn [term_parser] in H; apply cbind_ok in H as (re & _ & H); apply cbind_ok in H as (re' & _ & H); injection H as <-; constructor.
  Qed.

  Definition wrap_fine (w : option term) : Prop := forall x, w = Some x -> wrapper x /\ exists p, term_parser E x w WrapRE = COk p.
  Lemma own_fine : forall w g g' rs, wrap_fine w -> Forall2 (rule_fills (own_or w g)) g g' -> compile_rules (rule_fns E (own_or w g) g) = COk rs -> wrap_fine (own_or w g).
  Proof.
    intros w g g' rs WF F H x. pose proof (fills_lookup _ _ _ WrapRE F) as L. unfold own_or at 1. destruct (lookup WrapRE g) as [y|] eqn:LG.
    - intros X. injection X as <-. destruct L as (t' & _ & _ & WR). specialize (WR eq_refl). split; auto.
      assert (IN : In (WrapRE, y) g) by (apply lookup_In; auto). clear LG. unfold compile_rules in H. apply ctraverse_ok in H. revert IN.
      generalize dependent (S (length (rule_fns E (own_or w g) g))). intros n H IN.
      assert (K : forall all l rs, Forall2 (fun (x : string * (term * (string -> cres parser))) z => (let '(r, (t, f)) := x in cbind (chase n all t f) (fun f' => cbind (f' r) (fun p => COk (r, p)))) = COk z) (rule_fns E (own_or w g) l) rs ->
         In (WrapRE, y) l -> exists p, term_parser E y (own_or w g) WrapRE = COk p).
      { clear -WR. intros all. unfold rule_fns. induction l as [|[k u] l IH]; intros rs F IN; [destruct IN|]. cbn [map fst snd] in F. inversion F as [|? z ? zs Z ZS]; subst.
        destruct IN as [EQ|IN]; [|eapply IH; eauto]. injection EQ as -> ->. apply cbind_ok in Z as (h & HH & Z). apply cbind_ok in Z as (p & P & _).
        replace (chase n all y (term_parser E y (own_or w g))) with (COk (term_parser E y (own_or w g))) in HH by (destruct WR as [(s & [-> | ->])|(ts & -> & _)]; destruct n; reflexivity).
        injection HH as <-. eauto. }
      eapply K; eauto.
    - intros X. specialize (WF _ X). unfold own_or. rewrite LG. auto.
  Qed.
  Lemma term_parser_fills : forall t w t', wrap_fine w -> fills w t t' -> fn_more (term_parser E t w) (term_parser E t' w).
  Proof.
    assert (LIST : forall w ts ts', wrap_fine w -> Forall (fun t => forall w t', wrap_fine w -> fills w t t' -> fn_more (term_parser E t w) (term_parser E t' w)) ts -> Forall2 (fills w) ts ts' ->
      forall ps, ctraverse (fun x => cbind (term_parser E x w "") (fun p => COk (reg p))) ts = COk ps ->
      exists ps', ctraverse (fun x => cbind (term_parser E x w "") (fun p => COk (reg p))) ts' = COk ps' /\ Forall2 pmore ps ps').
    { intros w ts ts' WF H F. revert H. induction F as [|a b ts ts' A F IHF]; intros H ps P; cbn [ctraverse] in *.
      - injection P as <-. exists []. auto.
      - inversion H as [|? ? H1 H2]; subst. apply cbind_ok in P as (x & X & P). apply cbind_ok in X as (q & Q & X). injection X as <-. apply cbind_ok in P as (xs & XS & P). injection P as <-.
        destruct (H1 _ _ WF A _ _ Q) as (q' & -> & R). cbn [cbind]. destruct (IHF H2 _ XS) as (xs' & -> & RS). cbn [cbind]. eexists. split; [reflexivity|]. constructor; auto. apply pmore_reg; auto. }
    induction t using term_ind'; intros w t' WF F rule p P; cbn [term_parser] in P; inversion F; subst; cbn [term_parser]; try discriminate;
      try (injection P as <-; eexists; split; [reflexivity|constructor; auto]; fail).
    - exists p. split; auto. apply (pmore_token w (TS s) rule); auto. eexists; auto.
    - exists p. split; auto. apply (pmore_token w (TRE s) rule); auto. eexists; auto.
    - apply cbind_ok in P as (xs & XS & P). injection P as <-. match goal with X : Forall2 (fills w) _ _ |- _ => destruct (LIST _ _ _ WF H X _ XS) as (xs' & -> & B); rewrite (idents_fills _ _ _ X) end.
      eexists. split; [reflexivity|constructor; auto].
    - apply cbind_ok in P as (xs & XS & P). injection P as <-. match goal with X : Forall2 (fills w) _ _ |- _ => destruct (LIST _ _ _ WF H X _ XS) as (xs' & -> & B) end.
      eexists. split; [reflexivity|constructor; auto].
    - apply cbind_ok in P as (x & X & P). apply cbind_ok in P as (y & Y & P). injection P as <-.
      match goal with A : fills w t1 _, B : fills w t2 _ |- _ => destruct (IHt1 _ _ WF A _ _ X) as (x' & -> & RX); destruct (IHt2 _ _ WF B _ _ Y) as (y' & -> & RY); rewrite (ident_fills _ _ _ A), (ident_fills _ _ _ B) end.
      cbn [cbind]. eexists. split; [reflexivity|]. apply pmore_reg in RX, RY.
      assert (OP : pmore (PQuant "" 0 1 (reg y)) (PQuant "" 0 1 (reg y'))) by (constructor; auto).
      constructor. constructor. apply Forall2_app; [destruct cs; auto|]. constructor; [|destruct ce; auto]. repeat (constructor; auto).
    - apply cbind_ok in P as (x & X & P). injection P as <-. match goal with A : fills w t _ |- _ => destruct (IHt _ _ WF A _ _ X) as (x' & -> & RX) end. eexists. split; [reflexivity|constructor; auto]. apply pmore_reg; auto.
    - apply cbind_ok in P as (x & X & P). injection P as <-. match goal with A : fills w t _ |- _ => destruct (IHt _ _ WF A _ _ X) as (x' & -> & RX) end. eexists. split; [reflexivity|constructor; auto]. apply pmore_reg; auto.
    - match goal with A : fills w t _ |- _ => exact (IHt _ _ WF A _ _ P) end.
    - rename g' into gg. match goal with X : Forall2 _ g gg, Y : _ \/ _, Z : fills _ t _ |- _ => rename X into FG; rename Y into M; rename Z into FT end. change (Forall2 (rule_fills (own_or w g)) g gg) in FG.
      apply cbind_ok in P as (rs & RS & P). apply cbind_ok in P as (x & X & P). injection P as <-.
      fold (own_or w g) in RS, X. fold (rule_fns E (own_or w g) g) in RS. pose proof (own_fine _ _ _ _ WF FG RS) as WF'.
      assert (OW : own_or w (gg ++ more) = own_or w g).
      { unfold own_or. rewrite lookup_app. pose proof (fills_lookup _ _ _ WrapRE FG) as L. destruct (lookup WrapRE g) as [y|] eqn:LG.
        - destruct L as (y' & -> & FY & WR). rewrite (wrapper_fills _ _ _ (WR eq_refl) FY). auto.
        - rewrite L. destruct M as [->|(wx & -> & _ & _ & _ & ->)]; auto. }
      fold (own_or w (gg ++ more)). rewrite OW. fold (rule_fns E (own_or w g) (gg ++ more)).
      assert (IHG : Forall (fun kv : string * term => forall t', fills (own_or w g) (snd kv) t' -> fn_more (term_parser E (snd kv) (own_or w g)) (term_parser E t' (own_or w g))) g).
      { eapply Forall_impl; [|exact H]. cbn. intros kv Q t1 FT1. apply Q; auto. }
      assert (M' : more = [] \/ (exists x, more = [(WrapRE, x)] /\ wrapper x /\ exists p, term_parser E x (own_or w g) WrapRE = COk p)).
      { destruct M as [->|(wx & -> & WX & LN & _ & ->)]; [left; auto|right]. exists wx. split; auto. split; auto. unfold own_or. rewrite LN. apply (WF wx eq_refl). }
      destruct (rules_fills _ _ _ more FG IHG _ RS M') as (rs' & rs2 & RS' & K & FR). rewrite RS'. cbn [cbind].
      destruct (IHt _ _ WF' FT _ _ X) as (x' & -> & RX). cbn [cbind]. eexists. split; [reflexivity|]. apply scoped_result_more; auto. apply rules_more_lists; auto.
      rewrite K. intros r IN. destruct M as [->|(wx & _ & _ & _ & _ & ->)]; [destruct IN|]. destruct IN as [<-|[]]. auto.
    - apply cbind_ok in P as (x & X & P). injection P as <-. match goal with A : fills w t _ |- _ => destruct (IHt _ _ WF A _ _ X) as (x' & -> & RX) end. eexists. split; [reflexivity|constructor; auto].
  Qed.
End Compile.

(** * Whole grammars *)

Definition fill_with (w : option term) (g : grammar) : grammar := map (fun kv : string * term => (fst kv, filled w (snd kv))) g.
Lemma map_fixed : forall (f : term -> term) ts, Forall (fun t => f t = t) ts -> map f ts = ts.
Proof. induction 1; simpl; congruence. Qed.
Lemma resolved_filled : forall t w x u, term_resolve StackDelim x t = COk u -> filled w u = u.
Proof.
  induction t using term_ind'; intros w x u R; cbn [term_resolve] in R; try discriminate;
    try (injection R as <-; reflexivity); try (eapply IHt; eauto; fail);
    try (apply cbind_ok in R as (a1 & A1 & R); try apply cbind_ok in R as (a2 & A2 & R); injection R as <-; cbn [filled]; repeat f_equal; eauto; fail).
  - apply cbind_ok in R as (us & US & R). injection R as <-. cbn [filled]. f_equal. apply map_fixed. apply ctraverse_ok in US. revert us US. induction H as [|t ts HT FT IHT]; intros us US; inversion US; subst; constructor; eauto.
  - apply cbind_ok in R as (us & US & R). injection R as <-. cbn [filled]. f_equal. apply map_fixed. apply ctraverse_ok in US. revert us US. induction H as [|t ts HT FT IHT]; intros us US; inversion US; subst; constructor; eauto.
Qed.
Lemma aset_fill : forall w k u g, filled w u = u -> aset k u (fill_with w g) = fill_with w (aset k u g).
Proof. intros w k u g H. induction g as [|[a t] g IH]; cbn; [rewrite H; auto|]. destruct (String.eqb k a); cbn; [rewrite H; auto|]. fold (fill_with w g). rewrite IH. auto. Qed.
Lemma resolve_layers_fill : forall w r n ls i old g h, resolve_layers r n i old ls g = COk h -> resolve_layers r n i old ls (fill_with w g) = COk (fill_with w h).
Proof.
  intros w r n. induction ls as [|l ls IH]; intros i old g h H; cbn [resolve_layers] in *; [injection H as <-; auto|].
  apply cbind_ok in H as (t & T & H). rewrite T. cbn [cbind]. rewrite aset_fill by (eapply resolved_filled; eauto). apply IH. auto.
Qed.
Lemma resolve_loop_fill : forall w todo g h, resolve_stacks_loop todo g = COk h -> resolve_stacks_loop (fill_with w todo) (fill_with w g) = COk (fill_with w h).
Proof.
  intros w. induction todo as [|[r t] todo IH]; intros g h H; cbn [resolve_stacks_loop fill_with map fst snd] in *; [injection H as <-; auto|].
  destruct t; cbn [filled]; try (apply IH; auto; fail). apply cbind_ok in H as (g1 & G1 & H). rewrite (resolve_layers_fill _ _ _ _ _ _ _ _ G1). cbn [cbind]. apply IH. auto.
Qed.
Lemma resolve_stacks_fill : forall w g h, resolve_stacks g = COk h -> resolve_stacks (fill_with w g) = COk (fill_with w h).
Proof.
  intros w g h H. unfold resolve_stacks in *.
  replace (existsb (fun kv : string * term => is_stack (snd kv)) (fill_with w g)) with (existsb (fun kv : string * term => is_stack (snd kv)) g).
  - destruct (existsb _ g); [apply resolve_loop_fill; auto|injection H as <-; auto].
  - clear H. induction g as [|[a t] g IH]; auto. cbn [existsb fill_with map fst snd]. fold (fill_with w g). rewrite IH. f_equal. destruct t; auto.
Qed.

Section Whole.
  Variables (E : engine) (g : grammar) (ps : parsers).
  Hypothesis C : steady_grammar g.
  Hypothesis OK : compile E g = COk ps.
  Let w := lookup WrapRE g.

  Lemma w_ok : wrap_ok w.
  Proof. assert (X : wrap_ok (own_or None g)) by (apply own_or_ok; auto; intros x H; discriminate). unfold own_or in X. fold w in X. destruct w; auto. Qed.
  Lemma g_fills : Forall2 (rule_fills w) g (fill g).
  Proof.
    inversion C as [? F]; subst. unfold fill. fold w.
    eapply (Forall_Forall2 _ _ _ (fun kv : string * term => (fst kv, filled w (snd kv)))); [|exact F]. intros kv [A B]. cbn. split; auto. split; auto. cbn. apply filled_fills; auto. apply w_ok.
  Qed.
  Lemma fill_compiles : lookup WrapRE (p_grammar ps) = w /\ exists ps', compile E (fill g) = COk ps' /\ p_grammar ps' = fill (p_grammar ps) /\
    forall c f r s, parse_rule c f ps' r s = parse_rule c f ps r s.
  Proof.
    unfold compile in OK. apply cbind_ok in OK as (G & RG & H). apply cbind_ok in H as (rs & RS & H). injection H as <-. cbn [p_grammar].
    destruct (resolve_stacks_fills _ _ _ _ g_fills RG) as (G' & RG' & FG & LW). split; [exact LW|].
    assert (FE : fill G = fill_with w G) by (unfold fill, fill_with, w; rewrite LW; auto).
    pose proof (resolve_stacks_fill w g G RG) as RF. change (fill_with w g) with (fill g) in RF. rewrite RF in RG'. injection RG' as <-.
    unfold compile. rewrite RF. cbn [cbind]. unfold compile_resolved in *. apply cbind_ok in RS as (G2 & P2 & RS). fold (rule_fns E (lookup WrapRE G2) G2) in RS.
    assert (PR : Forall (fun kv : string * term => forall w t' u, fills w (snd kv) t' -> prep (snd kv) = COk u -> exists u', prep t' = COk u' /\ fills w u u') G).
    { apply Forall_forall. intros kv _ w0 t' u. apply prep_fills. }
    destruct (prep_rules_fills _ _ _ _ FG PR P2) as (G2' & P2' & F2 & L2 & _). unfold prep_rules in P2'. rewrite P2'. cbn [cbind].
    assert (LW2 : lookup WrapRE G2 = w) by (rewrite L2; exact LW). rewrite LW2 in RS.
    assert (LW2' : lookup WrapRE G2' = w).
    { pose proof (fills_lookup _ _ _ WrapRE F2) as L. rewrite LW2 in L. destruct w as [x|] eqn:EW; auto. destruct L as (x' & -> & FX & WR). rewrite (wrapper_fills _ _ _ (WR eq_refl) FX). auto. }
    rewrite LW2'. fold (rule_fns E w G2').
    assert (OW : own_or None G2 = w) by (unfold own_or; rewrite LW2; destruct w; auto).
    assert (WF : wrap_fine E w).
    { rewrite <- OW in F2, RS |- *. eapply own_fine; eauto. intros x X. discriminate. }
    assert (IH : Forall (fun kv : string * term => forall t', fills w (snd kv) t' -> fn_more (term_parser E (snd kv) w) (term_parser E t' w)) G2).
    { apply Forall_forall. intros kv _ t'. apply term_parser_fills. auto. }
    destruct (rules_fills E _ _ _ [] F2 IH _ RS (or_introl eq_refl)) as (rs' & rs2 & RS' & K & FR). rewrite app_nil_r in RS'. destruct rs2; [|discriminate]. rewrite app_nil_r in RS'.
    rewrite RS'. cbn [cbind]. eexists. split; [reflexivity|]. cbn [p_grammar]. split; [symmetry; exact FE|]. intros c f r s. unfold parse_rule. cbn [p_rules].
    assert (RM : rules_more rs rs') by (rewrite <- (app_nil_r rs'); apply rules_more_lists; auto; intros ? []).
    assert (L : match lookup r rs with Some q => exists q', lookup r rs' = Some q' /\ pmore q q' | None => lookup r rs' = None end).
    { clear -FR. induction FR as [|[a p] [b p'] rs rs' [EQ X] F IH]; cbn [lookup]; auto. cbn in EQ, X. subst b. destruct (String.eqb r a); eauto. }
    destruct (lookup r rs) as [q|].
    - destruct L as (q' & -> & Q). rewrite (parse_more c f [rs] [rs'] q q'); auto.
    - rewrite L. auto.
  Qed.
End Whole.

(** Filled grammars can be written. *)
Lemma writable_wrapped : forall w g, NoDup (keys g) -> Forall (fun kv : string * term => rule_name (fst kv) /\ writable (snd kv)) g -> (forall x, w = Some x -> writable x) ->
  NoDup (keys (g ++ inherited w g)) /\ Forall (fun kv : string * term => rule_name (fst kv) /\ writable (snd kv)) (g ++ inherited w g).
Proof.
  intros w g N F W. unfold inherited. destruct w as [x|]; [|rewrite app_nil_r; auto]. destruct (lookup WrapRE g) eqn:L; [rewrite app_nil_r; auto|]. destruct (existsb _ g); [rewrite app_nil_r; auto|].
  split.
  - unfold keys. rewrite map_app. cbn. apply lookup_None in L. apply (Permutation_NoDup (l := WrapRE :: keys g)); [apply Permutation_cons_append|]. constructor; auto.
  - apply Forall_app. split; auto. constructor; auto. cbn. split; auto. split.
    + split; [repeat (apply utf8_1; [cbv; split; repeat constructor|]); apply utf8_nil|]. cbn. intros X. repeat (destruct X as [X|X]; [discriminate|]). auto.
    + intros c I X. cbn in I, X. repeat (destruct I as [<-|I]; [repeat (destruct X as [X|X]; [discriminate|]); auto|]). auto.
Qed.
Lemma lookup_wrapped : forall w g, (forall x, w = Some x -> writable x) -> writable_grammar g -> forall x, match lookup WrapRE g with Some y => Some y | None => w end = Some x -> writable x.
Proof.
  intros w g W WG x. destruct (lookup WrapRE g) as [y|] eqn:L; auto. intros H. injection H as <-. inversion WG as [? _ F]; subst. apply lookup_In in L. rewrite Forall_forall in F. apply (F _ L).
Qed.
Lemma writable_filled : forall t w, (forall x, w = Some x -> writable x) -> writable t -> writable (filled w t).
Proof.
  induction t using term_ind'; intros w W WT; cbn [filled]; inversion WT; subst; auto; try (constructor; auto; fail).
  - constructor. apply Forall_map. eapply Forall_and_imp; [exact H|eassumption|]. cbn. auto.
  - constructor. apply Forall_map. eapply Forall_and_imp; [exact H|eassumption|]. cbn. auto.
  - match goal with X : writable_grammar g |- _ => rename X into WG end. pose proof (lookup_wrapped w g W WG) as W'. set (v := match lookup WrapRE g with Some y => Some y | None => w end) in *. constructor; auto.
    constructor.
    + inversion WG as [? N F]; subst. destruct (writable_wrapped w g N F W) as [N' _]. unfold keys in *. rewrite map_app, map_map in *. exact N'.
    + inversion WG as [? N F]; subst. destruct (writable_wrapped w g N F W) as [_ F']. apply Forall_app in F' as [_ F']. apply Forall_app. split; auto.
      apply Forall_map. eapply Forall_and_imp; [exact H|exact F|]. cbn. intros kv P [Q1 Q2]. auto.
Qed.
Lemma writable_fill : forall g, writable_grammar g -> writable_grammar (fill g).
Proof.
  intros g WG. assert (W : forall x, lookup WrapRE g = Some x -> writable x).
  { intros x L. apply (lookup_wrapped None g); auto; [discriminate|]. rewrite L. auto. }
  inversion WG as [? N F]; subst. constructor.
  - unfold fill, keys. rewrite map_map. exact N.
  - apply Forall_map. eapply Forall_impl; [|exact F]. cbn. intros kv [A B]. split; auto. apply writable_filled; auto.
Qed.
Lemma lookup_fill : forall r g, lookup r (fill g) = option_map (filled (lookup WrapRE g)) (lookup r g).
Proof. intros r g. unfold fill. generalize (lookup WrapRE g). intros w. induction g as [|[a t] g IH]; cbn; auto. destruct (String.eqb r a); auto. Qed.
