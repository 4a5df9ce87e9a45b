(** Proofs for C81: a grammar compiled again parses the same. *)
From Verif Require Import Base Scanner Syntax Engine Resolve Compile Parse CompileProofs StackSpec StackProofs Boot BootProofs FillProofs WrapSpec WrapProofs.
Local Open Scope nat_scope.

(** * Related parsers: rules for [.wrapRE] nobody uses do not count *)

Inductive pext : parser -> parser -> Prop :=
| px_rule : forall n r, r <> WrapRE -> pext (PRule n r) (PRule n r)
| px_link : forall r, r <> WrapRE -> pext (PLink r) (PLink r)
| px_s : forall r x re, pext (PS r x re) (PS r x re)
| px_re : forall r x re, pext (PRE r x re) (PRE r x re)
| px_ref : forall i d, pext (PREF i d) (PREF i d)
| px_ext : forall x, pext (PExt x) (PExt x)
| px_seq : forall r ids ps ps', Forall2 pext ps ps' -> pext (PSeq r ids ps) (PSeq r ids ps')
| px_oneof : forall r ps ps', Forall2 pext ps ps' -> pext (POneof r ps) (POneof r ps')
| px_delim : forall r a cs ce p p', pext p p' -> pext (PDelim r a cs ce p) (PDelim r a cs ce p')
| px_look : forall r p p', pext p p' -> pext (PLook r p) (PLook r p')
| px_quant : forall r mn mx p p', pext p p' -> pext (PQuant r mn mx p) (PQuant r mn mx p')
| px_cut : forall p p', pext p p' -> pext (PCut p) (PCut p')
| px_scoped : forall rs rs' p p', rules_ext rs rs' -> pext p p' -> pext (PScoped rs p) (PScoped rs' p')
with rules_ext : list (string * parser) -> list (string * parser) -> Prop :=
| rx : forall rs rs', (forall r, r <> WrapRE -> lookup r rs = None -> lookup r rs' = None) ->
    (forall r q, r <> WrapRE -> lookup r rs = Some q -> exists q', lookup r rs' = Some q' /\ pext q q') -> rules_ext rs rs'.

Lemma pext_reg : forall p p', pext p p' -> pext (reg p) (reg p').
Proof. intros p p' H. destruct H; simpl; constructor; auto. Qed.

Lemma resolve_link_ext : forall e e' r, r <> WrapRE -> Forall2 rules_ext e e' ->
  match resolve_link e r with
  | Some (q, e1) => exists q' e1', resolve_link e' r = Some (q', e1') /\ pext q q' /\ Forall2 rules_ext e1 e1'
  | None => resolve_link e' r = None
  end.
Proof.
  intros e e' r NE H. induction H as [|rs rs' e e' RS F IH]; simpl; auto.
  inversion RS as [? ? N S]; subst. destruct (lookup r rs) as [q|] eqn:L.
  - destruct (S _ _ NE L) as (q' & L' & P). rewrite L'. do 2 eexists. split; eauto.
  - rewrite (N _ NE L). destruct (resolve_link e r) as [[q e1]|]; auto.
Qed.
Lemma is_cut0_ext : forall p p', pext p p' -> is_cut0 p = is_cut0 p'.
Proof. induction p using parser_ind'; intros p' S; inversion S; subst; simpl; auto. Qed.
Lemma is_cut_ext : forall e e' p p', Forall2 rules_ext e e' -> pext p p' -> is_cut e p = is_cut e' p'.
Proof.
  intros e e' p p' E S. destruct p; inversion S; subst; auto; try (apply is_cut0_ext; auto; fail).
  simpl. match goal with N : ?t <> WrapRE |- _ => pose proof (resolve_link_ext e e' t N E) as R; destruct (resolve_link e t) as [[q e1]|] end.
  - destruct R as (q' & e1' & -> & Q & _). apply is_cut0_ext; auto.
  - rewrite R. auto.
Qed.

Section Run.
  Variable c : config.

  Lemma parse_ext : forall f e e' p p' sc s k, Forall2 rules_ext e e' -> pext p p' ->
    parse c f e p sc s k = parse c f e' p' sc s k.
  Proof.
    induction f as [|f IH]; intros e e' p p' sc s k EE P; [reflexivity|].
    assert (SEQ : forall rule ps ps', Forall2 pext ps ps' -> forall ids sc s k acc,
      seq_loop c (parse c f e) (is_cut e) rule ids ps sc s k acc = seq_loop c (parse c f e') (is_cut e') rule ids ps' sc s k acc).
    { induction 1 as [|p1 p2 ps ps' S F IHF]; intros; cbn [seq_loop]; auto.
      rewrite (IH e e' p1 p2) by auto. rewrite (is_cut_ext e e' p1 p2) by auto.
      destruct (parse c f e' p2 sc0 s0 k0) as [[[v|er| |] s1] k1]; auto.
      destruct (if is_cut e' p2 then _ else _) as [sc1 k2]. auto. }
    assert (ALT : forall rule ps ps', Forall2 pext ps ps' -> forall i sc pc mc s fur k,
      oneof_loop (parse c f e) rule i ps sc pc mc s fur k = oneof_loop (parse c f e') rule i ps' sc pc mc s fur k).
    { induction 1 as [|p1 p2 ps ps' S F IHF]; intros; cbn [oneof_loop]; auto.
      rewrite (IH e e' p1 p2) by auto.
      destruct (parse c f e' p2 sc0 s0 k0) as [[[v|er| |] s1] k1]; auto. destruct (not_my_fatal er mc); auto. }
    assert (REP : forall rule mn mx p1 p2, pext p1 p2 -> forall n sc pc mc s k acc,
      quant_loop (parse c f e) n rule mn mx p1 sc pc mc s k acc = quant_loop (parse c f e') n rule mn mx p2 sc pc mc s k acc).
    { intros rule mn mx p1 p2 S. induction n as [|n IHn]; intros; cbn [quant_loop]; auto.
      rewrite (IH e e' p1 p2) by auto. destruct (_ || _); auto.
      destruct (parse c f e' p2 sc0 s0 k0) as [[[v|er| |] s1] k1]; auto. }
    assert (ESC : forall sc s k f1 f2, f1 tt = f2 tt -> with_escape c sc s k f1 = with_escape c sc s k f2).
    { intros. unfold with_escape. destruct (cf_esc c); auto. destruct (eat_regexp _ _ _ _); auto. }
    destruct P; cbn [parse]; auto; try (apply ESC).
    - match goal with N : ?t <> WrapRE |- _ => pose proof (resolve_link_ext e e' t N EE) as R end. destruct (resolve_link e r) as [[q e1]|].
      + destruct R as (q' & e1' & -> & Q & E1). auto.
      + rewrite R. auto.
    - destruct (replace_cut c false sc k) as [[[? ?] ?] ?]. auto.
    - rewrite (IH e e' p p') by auto. auto.
    - rewrite (IH e e' p p') by auto. auto.
    - destruct (replace_cut c false sc k) as [[[? ?] ?] ?]. auto.
  Qed.
End Run.

(** * Related terms *)

Definition added (w : option term) (g g1 g' : grammar) : Prop :=
  g' = g1 \/ exists x, w = Some x /\ lookup WrapRE g = None /\ existsb (fun kv => is_stack (snd kv)) g = false /\ g' = g1 ++ [(WrapRE, x)].

Inductive wrote : option term -> term -> term -> Prop :=
| wr_rule : forall w r, r <> WrapRE -> wrote w (TRule r) (TRule r)
| wr_s : forall w s, wrote w (TS s) (TS s)
| wr_re : forall w s, wrote w (TRE s) (TRE s)
| wr_ref : forall w i d, wrote w (TREF i d) (TREF i d)
| wr_ext : forall w x, wrote w (TExtRef x) (TExtRef x)
| wr_stack : forall w ls, Forall wrap_unused ls -> wrote w (TStack ls) (TStack ls)
| wr_seq : forall w ts us, Forall2 (wrote w) ts us -> wrote w (TSeq ts) (TSeq us)
| wr_oneof : forall w ts us, Forall2 (wrote w) ts us -> wrote w (TOneof ts) (TOneof us)
| wr_delim : forall w t t' s s' a cs ce, wrote w t t' -> wrote w s s' -> wrote w (TDelim t s a cs ce) (TDelim t' s' a cs ce)
| wr_look : forall w t t', wrote w t t' -> wrote w (TLookAhead t) (TLookAhead t')
| wr_quant : forall w t t' mn mx, wrote w t t' -> wrote w (TQuant t mn mx) (TQuant t' mn mx)
| wr_named : forall w n t t', wrote w t t' -> wrote w (TNamed n t) (TNamed n t')
| wr_cut : forall w t t', wrote w t t' -> wrote w (TCut t) (TCut t')
| wr_scoped : forall w t t' g g1 g', wrote (under w g) t t' -> (forall x, In (WrapRE, x) g -> proper_wrap x) ->
    Forall2 (fun kv kv' => fst kv' = fst kv /\ wrote (under w g) (snd kv) (snd kv')) g g1 -> added w g g1 g' ->
    wrote w (TScoped t g) (TScoped t' g').

Lemma unused_list : forall ts, (fix go l := match l with [] => True | x :: l' => wrap_unused x /\ go l' end) ts <-> Forall wrap_unused ts.
Proof. induction ts as [|t ts IH]; split; intros H; auto; [destruct H; constructor; auto; apply IH; auto|inversion H; subst; split; auto; apply IH; auto]. Qed.
Lemma unused_rules : forall g : grammar, (fix go l := match l with [] => True | kv :: l' => wrap_unused (snd kv) /\ go l' end) g <-> Forall (fun kv => wrap_unused (snd kv)) g.
Proof. induction g as [|t ts IH]; split; intros H; auto; [destruct H; constructor; auto; apply IH; auto|inversion H; subst; split; auto; apply IH; auto]. Qed.

Lemma aset_new : forall A k (v : A) l, lookup k l = None -> aset k v l = l ++ [(k, v)].
Proof. intros A k v l. induction l as [|[a b] l IH]; simpl; auto. destruct (String.eqb k a); [discriminate|]. intros. rewrite IH; auto. Qed.

Lemma write_wrote : forall t w, tidy_wraps t -> wrap_unused t -> wrote w t (write_wrap w t).
Proof.
  induction t using term_ind'; intros w T U; cbn [write_wrap]; try (constructor; auto; fail).
  - constructor. simpl in U. apply unused_list in U. rewrite Forall_forall in *. assert (Q : forall x, In x ts -> wrote w x (write_wrap w x)) by (intros; apply H; auto; eapply tidy_seq; eauto).
    clear -Q. induction ts; simpl; constructor; [apply Q; simpl; auto|apply IHts; intros; apply Q; simpl; auto].
  - constructor. simpl in U. apply unused_list in U. rewrite Forall_forall in *. assert (Q : forall x, In x ts -> wrote w x (write_wrap w x)) by (intros; apply H; auto; eapply tidy_oneof; eauto).
    clear -Q. induction ts; simpl; constructor; [apply Q; simpl; auto|apply IHts; intros; apply Q; simpl; auto].
  - constructor. simpl in U. apply unused_list in U. auto.
  - destruct U. constructor; [apply IHt1|apply IHt2]; auto; intros a0 b0 c0 d0 S0; apply (T a0 b0); [apply si_delim|apply si_sep]; auto.
  - constructor. apply IHt; auto. intros a0 b0 c0 d0 S0. apply (T a0 b0). constructor; auto.
  - constructor. apply IHt; auto. intros a0 b0 c0 d0 S0. apply (T a0 b0). constructor; auto.
  - constructor. apply IHt; auto. intros a0 b0 c0 d0 S0. apply (T a0 b0). constructor; auto.
  - fold (under w g). destruct U as [U1 U2]. apply unused_rules in U2. rewrite Forall_forall in H, U2.
    apply (wr_scoped w t _ g (map (fun kv => (fst kv, write_wrap (under w g) (snd kv))) g)).
    + apply IHt; auto. eapply tidy_inner; eauto.
    + intros x I. apply (T None None g x); auto. constructor.
    + assert (Q : forall kv, In kv g -> wrote (under w g) (snd kv) (write_wrap (under w g) (snd kv))).
      { intros [r u] I. apply (H _ I); [eapply tidy_rule; eauto|apply (U2 _ I)]. }
      clear -Q. revert Q. generalize (under w g). intros v Q. induction g as [|kv g IH]; simpl; constructor; [simpl; split; auto; apply Q; simpl; auto|].
      apply IH. intros; apply Q; simpl; auto.
    + unfold added. destruct (lookup WrapRE g) eqn:L; auto. destruct w as [x|]; auto.
      destruct (existsb (fun kv : string * term => is_stack_term (snd kv)) g) eqn:S; auto. right. exists x. repeat split; auto.
      apply aset_new. rewrite lookup_written, L. auto.
  - constructor. apply IHt; auto. intros a0 b0 c0 d0 S0. apply (T a0 b0). constructor; auto.
Qed.

Definition pairs (w : option term) (kv kv' : string * term) : Prop := fst kv' = fst kv /\ wrote w (snd kv) (snd kv').
Definition own_proper (g : grammar) : Prop := forall x, In (WrapRE, x) g -> proper_wrap x.

Lemma resolved_wrote : forall w new t u, wrap_unused t -> new <> WrapRE -> term_resolve StackDelim new t = COk u -> wrote w u u.
Proof.
  intros w new. induction t using term_ind'; intros u U N R; cbn [term_resolve] in R; try discriminate; try (inversion R; subst; constructor; auto; fail).
  - inversion R; subst. constructor. destruct (String.eqb r StackDelim); auto.
  - apply cbind_ok in R as (us & X & R). inversion R; subst. constructor. simpl in U. apply unused_list in U. apply ctraverse_ok in X. clear R.
    induction X as [|a b ts us A X IH]; constructor; inversion U; inversion H; subst; auto.
  - apply cbind_ok in R as (us & X & R). inversion R; subst. constructor. simpl in U. apply unused_list in U. apply ctraverse_ok in X. clear R.
    induction X as [|a b ts us A X IH]; constructor; inversion U; inversion H; subst; auto.
  - destruct U. apply cbind_ok in R as (a' & X & R). apply cbind_ok in R as (b' & Y & R). inversion R; subst. constructor; auto.
  - apply cbind_ok in R as (a' & X & R). inversion R; subst. constructor; auto.
  - apply cbind_ok in R as (a' & X & R). inversion R; subst. constructor; auto.
  - apply cbind_ok in R as (a' & X & R). inversion R; subst. constructor; auto.
  - auto.
Qed.

Lemma aset_pairs : forall w k v v' g g1, wrote w v v' -> Forall2 (pairs w) g g1 -> Forall2 (pairs w) (aset k v g) (aset k v' g1).
Proof.
  intros w k v v' g g1 V F. induction F as [|[a t] [b u] g g1 [E X] F IH]; simpl.
  - constructor; auto. split; auto.
  - simpl in E, X. subst b. destruct (String.eqb k a); constructor; auto; split; auto.
Qed.
Lemma layers_pairs : forall w rule n, rule <> WrapRE -> forall ls, Forall wrap_unused ls -> forall i old g g1 g2, Forall2 (pairs w) g g1 ->
  resolve_layers rule n i old ls g = COk g2 -> exists g2', resolve_layers rule n i old ls g1 = COk g2' /\ Forall2 (pairs w) g2 g2'.
Proof.
  intros w rule n NE ls U. induction U as [|l ls UL U IH]; simpl; intros i old g g1 g2 F H; [inversion H; subst; eauto|].
  apply cbind_ok in H as (t & T & H). rewrite T. cbn [cbind]. eapply IH; [|exact H]. apply aset_pairs; auto.
  eapply resolved_wrote; [exact UL| |exact T]. apply layer_not_wrap; auto.
Qed.
Lemma wrote_stack : forall w t t', wrote w t t' -> is_stack t' = is_stack t /\ forall ls, t = TStack ls -> t' = TStack ls /\ Forall wrap_unused ls.
Proof. intros w t t' R. destruct R; split; auto; intros ? E; inversion E; subst; auto. Qed.
Lemma pairs_stack : forall w g g1, Forall2 (pairs w) g g1 -> existsb (fun kv => is_stack (snd kv)) g1 = existsb (fun kv => is_stack (snd kv)) g.
Proof. intros w g g1 F. induction F as [|a b g g1 [_ X] F IH]; simpl; auto. rewrite IH. destruct (wrote_stack _ _ _ X) as [-> _]. auto. Qed.
Lemma stacks_pairs : forall w g g1 g2, own_proper g -> Forall2 (pairs w) g g1 -> resolve_stacks g = COk g2 ->
  exists g2', resolve_stacks g1 = COk g2' /\ Forall2 (pairs w) g2 g2'.
Proof.
  intros w g g1 g2 P F H. unfold resolve_stacks in *. rewrite (pairs_stack _ _ _ F). destruct (existsb _ g); [|inversion H; subst; eauto].
  assert (X : forall todo todo1, Forall2 (pairs w) todo todo1 -> (forall kv, In kv todo -> In kv g) -> forall a b, Forall2 (pairs w) a b ->
    resolve_stacks_loop todo a = COk g2 -> exists g2', resolve_stacks_loop todo1 b = COk g2' /\ Forall2 (pairs w) g2 g2').
  { clear -P. intros todo todo1 F. induction F as [|[r t] [r1 t1] todo todo1 [E X] F IH]; intros I a b A H; [inversion H; subst; simpl; eauto|].
    simpl in E, X. subst r1. destruct (wrote_stack _ _ _ X) as [S1 S2]. destruct (is_stack t) eqn:S.
    - destruct t as [| | | | | | |ls| | | | | |]; try discriminate. destruct (S2 _ eq_refl) as [-> U]. cbn [resolve_stacks_loop] in *. apply cbind_ok in H as (a1 & H1 & H).
      assert (NE : r <> WrapRE) by (intros ->; apply (P (TStack ls)); apply I; simpl; auto).
      destruct (layers_pairs _ _ _ NE _ U _ _ _ _ _ A H1) as (b1 & -> & A1). cbn [cbind]. eapply IH; eauto. intros; apply I; simpl; auto.
    - assert (H' : resolve_stacks_loop todo a = COk g2) by (destruct t; try discriminate; exact H).
      assert (G : resolve_stacks_loop ((r, t1) :: todo1) b = resolve_stacks_loop todo1 b) by (destruct t1; try discriminate; reflexivity).
      rewrite G. eapply IH; eauto. intros; apply I; simpl; auto. }
  eapply X; eauto.
Qed.
Lemma layers_own : forall rule n, rule <> WrapRE -> forall ls i old g g2, old <> WrapRE -> own_proper g -> resolve_layers rule n i old ls g = COk g2 -> own_proper g2.
Proof.
  intros rule n NE. induction ls as [|l ls IH]; simpl; intros i old g g2 NO P H; [inversion H; subst; auto|].
  apply cbind_ok in H as (t & T & H). eapply IH; [| |exact H]; [apply layer_not_wrap; auto|].
  intros x I. apply In_aset in I as [E|I]; auto. inversion E; congruence.
Qed.
Lemma stacks_own : forall g g2, own_proper g -> resolve_stacks g = COk g2 -> own_proper g2.
Proof.
  intros g g2 P H. unfold resolve_stacks in H. destruct (existsb _ g); [|inversion H; subst; auto].
  assert (X : forall todo a, (forall kv, In kv todo -> In kv g) -> own_proper a -> resolve_stacks_loop todo a = COk g2 -> own_proper g2).
  { clear H. induction todo as [|[r t] todo IH]; intros a I A H; [inversion H; subst; auto|].
    destruct (is_stack t) eqn:S.
    - destruct t as [| | | | | | |ls| | | | | |]; try discriminate. simpl in H. apply cbind_ok in H as (a1 & H1 & H).
      assert (NE : r <> WrapRE) by (intros ->; apply (P (TStack ls)); apply I; simpl; auto).
      eapply IH; [|eapply layers_own; [exact NE|exact NE|exact A|exact H1]|exact H]. intros; apply I; simpl; auto.
    - eapply (IH a); auto. intros; apply I; simpl; auto. destruct t; try discriminate; exact H. }
  eapply X; eauto.
Qed.

Lemma flat_prep : forall t, proper_wrap t -> prep t = COk t.
Proof.
  intros t P. destruct t; try contradiction; auto. simpl in *.
  assert (X : ctraverse prep ts = COk ts); [|rewrite X; auto].
  induction P as [|x ts X P IH]; simpl; auto. destruct x; try contradiction; simpl; rewrite IH; auto.
Qed.
Lemma under_w : forall w g h, lookup WrapRE h = lookup WrapRE g -> under w h = under w g.
Proof. intros w g h E. unfold under. rewrite E. auto. Qed.

Lemma prep_rules_facts : forall g gp, own_proper g -> ctraverse (fun kv : string * term => cbind (prep (snd kv)) (fun u => COk (fst kv, u))) g = COk gp ->
  own_proper gp /\ lookup WrapRE gp = lookup WrapRE g.
Proof.
  intros g gp P H. apply ctraverse_ok in H. induction H as [|[r t] kv g gp X F IH]; [split; auto|].
  simpl in X. apply cbind_ok in X as (u & U & X). inversion X; subst. destruct IH as [A B]; [intros x I; apply P; simpl; auto|]. split.
  - intros x [E|I]; auto. inversion E; subst. assert (Q : proper_wrap t) by (apply P; simpl; auto). rewrite (flat_prep _ Q) in U. inversion U; subst; auto.
  - cbn [lookup fst snd]. destruct (String.eqb WrapRE r) eqn:E; auto. apply String.eqb_eq in E. subst r.
    assert (Q : proper_wrap t) by (apply P; simpl; auto). rewrite (flat_prep _ Q) in U. inversion U; subst; auto.
Qed.
Lemma prep_stack : forall t u, prep t = COk u -> is_stack u = is_stack t.
Proof.
  intros t u H. destruct t; cbn [prep] in H; repeat (match goal with H : cbind _ _ = COk _ |- _ => apply cbind_ok in H as (? & ? & H) end); inversion H; subst; auto.
Qed.
Lemma prep_rules_stack : forall g gp, ctraverse (fun kv : string * term => cbind (prep (snd kv)) (fun u => COk (fst kv, u))) g = COk gp ->
  existsb (fun kv : string * term => is_stack (snd kv)) gp = existsb (fun kv : string * term => is_stack (snd kv)) g.
Proof.
  intros g gp H. apply ctraverse_ok in H. induction H as [|[r t] kv g gp X F IH]; auto.
  simpl in X. apply cbind_ok in X as (u & U & X). inversion X; subst. simpl. rewrite IH, (prep_stack _ _ U). auto.
Qed.
Lemma ctraverse_app : forall A B (f : A -> cres B) l x y l', ctraverse f l = COk l' -> f x = COk y -> ctraverse f (l ++ [x]) = COk (l' ++ [y]).
Proof.
  intros A B f l x y. induction l as [|a l IH]; simpl; intros l' H X; [inversion H; subst; rewrite X; auto|].
  apply cbind_ok in H as (b & B1 & H). apply cbind_ok in H as (m & M & H). inversion H; subst. rewrite B1. cbn [cbind]. rewrite (IH m) by auto. auto.
Qed.

Definition prep_goal (t : term) : Prop := forall w t' u, (forall x, w = Some x -> proper_wrap x) -> wrote w t t' -> prep t = COk u -> exists u', prep t' = COk u' /\ wrote w u u'.
Lemma prep_list : forall ts, Forall prep_goal ts -> forall w us vs, (forall x, w = Some x -> proper_wrap x) -> Forall2 (wrote w) ts us -> ctraverse prep ts = COk vs ->
  exists vs', ctraverse prep us = COk vs' /\ Forall2 (wrote w) vs vs'.
Proof.
  induction 1 as [|t ts T F IH]; intros w us vs W R H; inversion R; subst; simpl in H.
  - inversion H; subst. exists []. split; auto.
  - apply cbind_ok in H as (v & V & H). apply cbind_ok in H as (vs2 & VS & H). inversion H; subst.
    destruct (T w y v W) as (v' & V' & D); auto. destruct (IH w l' vs2 W) as (vs' & VS' & D2); auto. exists (v' :: vs'). simpl. rewrite V', VS'. auto.
Qed.

Lemma prep_wrote : forall t, prep_goal t.
Proof.
  induction t using term_ind'; intros w t' v W R H1; inversion R; subst; cbn [prep] in *;
    try (inversion H1; subst; eexists; split; [reflexivity|constructor; auto]; fail).
  - apply cbind_ok in H1 as (vs & X & H1). inversion H1; subst.
    match goal with F : Forall2 (wrote w) ts _ |- _ => destruct (prep_list _ H _ _ _ W F X) as (vs' & -> & D) end. eexists. split; [reflexivity|]. constructor; auto.
  - apply cbind_ok in H1 as (vs & X & H1). inversion H1; subst.
    match goal with F : Forall2 (wrote w) ts _ |- _ => destruct (prep_list _ H _ _ _ W F X) as (vs' & -> & D) end. eexists. split; [reflexivity|]. constructor; auto.
  - apply cbind_ok in H1 as (a' & X & H1). apply cbind_ok in H1 as (b' & Y & H1). inversion H1; subst.
    match goal with A : wrote w t1 ?x, B : wrote w t2 ?y |- _ => destruct (IHt1 _ _ _ W A X) as (a2 & -> & D1); cbn [cbind]; destruct (IHt2 _ _ _ W B Y) as (b2 & -> & D2) end.
    eexists. split; [reflexivity|constructor; auto].
  - apply cbind_ok in H1 as (a' & X & H1). inversion H1; subst.
    match goal with A : wrote w t ?x |- _ => destruct (IHt _ _ _ W A X) as (a2 & -> & D1) end. eexists. split; [reflexivity|constructor; auto].
  - apply cbind_ok in H1 as (a' & X & H1). inversion H1; subst.
    match goal with A : wrote w t ?x |- _ => destruct (IHt _ _ _ W A X) as (a2 & -> & D1) end. eexists. split; [reflexivity|constructor; auto].
  - apply cbind_ok in H1 as (a' & X & H1). inversion H1; subst.
    match goal with A : wrote w t ?x |- _ => destruct (IHt _ _ _ W A X) as (a2 & -> & D1) end. eexists. split; [reflexivity|constructor; auto].
  - match goal with A : wrote (under w g) t _, B : forall x, In _ g -> _, C : Forall2 _ g _, D : added _ _ _ _ |- _ => rename A into RT; rename B into OWN; rename C into FR; rename D into AD end.
    apply cbind_ok in H1 as (a' & X & H1). apply cbind_ok in H1 as (gp & GP & H1). apply cbind_ok in H1 as (g2 & G2 & H1). inversion H1; subst v. clear H1.
    assert (W2 : forall x, under w g = Some x -> proper_wrap x).
    { intros x. unfold under. destruct (lookup WrapRE g) eqn:L; intros E; auto. inversion E; subst. apply OWN. apply lookup_In; auto. }
    destruct (IHt _ _ _ W2 RT X) as (a2 & -> & D1). cbn [cbind].
    destruct (prep_rules_facts _ _ OWN GP) as [OWNP LP].
    assert (G : exists gp1, ctraverse (fun kv : string * term => cbind (prep (snd kv)) (fun u => COk (fst kv, u))) g1 = COk gp1 /\ Forall2 (pairs (under w g)) gp gp1).
    { clear -H FR GP W2. apply ctraverse_ok in GP. revert H gp GP W2 FR. generalize (under w g). intros v H gp GP W2 FR. revert gp GP.
      induction FR as [|[r t] [r1 t1] g g1 [E A] F IH]; intros gp GP; inversion GP as [|? y ? ys Y YS]; subst; [exists []; auto|]. simpl in E, A. subst r1.
      inversion H as [|? ? HX HF]; subst. simpl in Y, HX. apply cbind_ok in Y as (u & U & Y). inversion Y; subst.
      destruct (HX v t1 u W2 A U) as (u' & U' & D). destruct (IH HF _ YS) as (ys' & V & F'). exists ((r, u') :: ys').
      cbn [ctraverse fst snd]. rewrite U'. cbn [cbind]. rewrite V. split; auto. constructor; auto. split; auto. }
    destruct G as (gp1 & GP1 & FP).
    assert (NST := prep_rules_stack _ _ GP).
    destruct AD as [->|(x & -> & LN & NS & ->)].
    + rewrite GP1. cbn [cbind]. destruct (stacks_pairs _ _ _ _ OWNP FP G2) as (g2' & -> & F2). cbn [cbind].
      eexists. split; [reflexivity|]. assert (UE : under w g2 = under w g) by (apply under_w; rewrite (resolve_stacks_wrap _ _ OWNP G2); auto).
      apply (wr_scoped w a' a2 g2 g2'); rewrite ?UE; auto; [eapply stacks_own; eauto|left; auto].
    + rewrite NS in NST. unfold resolve_stacks in G2. rewrite NST in G2. inversion G2; subst g2. clear G2.
      rewrite (ctraverse_app _ _ _ _ (WrapRE, x) (WrapRE, x) _ GP1).
      2: { cbn [fst snd]. rewrite (flat_prep x); auto. }
      cbn [cbind].
      assert (NS2 : existsb (fun kv => is_stack (snd kv)) (gp1 ++ [(WrapRE, x)]) = false).
      { rewrite existsb_app, (pairs_stack _ _ _ FP), NST. simpl. specialize (W x eq_refl). destruct x; try contradiction; auto. }
      unfold resolve_stacks. rewrite NS2. cbn [cbind]. eexists. split; [reflexivity|].
      assert (UE : under (Some x) gp = under (Some x) g) by (apply under_w; auto).
      apply (wr_scoped _ a' a2 gp gp1); rewrite ?UE; auto. right. exists x. repeat split; auto. rewrite LP; auto.
  - apply cbind_ok in H1 as (a' & X & H1). inversion H1; subst.
    match goal with A : wrote w t ?x |- _ => destruct (IHt _ _ _ W A X) as (a2 & -> & D1) end. eexists. split; [reflexivity|constructor; auto].
Qed.

(** * Compiling them *)

Definition fn_ext (f f' : string -> cres parser) : Prop := forall rule p, f rule = COk p -> exists p', f' rule = COk p' /\ pext p p'.
Definition wrap_works (E : engine) (w : option term) : Prop :=
  forall x, w = Some x -> proper_wrap x /\ exists p, term_parser E x (Some x) WrapRE = COk p.

Lemma pairs_lookup : forall w g g1, Forall2 (pairs w) g g1 -> forall r,
  match lookup r g with Some t => exists t', lookup r g1 = Some t' /\ wrote w t t' | None => lookup r g1 = None end.
Proof.
  intros w g g1 F r. induction F as [|[a t] [b u] g g1 [E X] F IH]; simpl; auto. simpl in E, X. subst b. destruct (String.eqb r a); eauto.
Qed.
Lemma added_lookup : forall w v g g1 g', Forall2 (pairs v) g g1 -> added w g g1 g' -> forall r, r <> WrapRE ->
  match lookup r g with Some t => exists t', lookup r g' = Some t' /\ wrote v t t' | None => lookup r g' = None end.
Proof.
  intros w v g g1 g' F A r N. pose proof (pairs_lookup _ _ _ F r) as X. destruct A as [->|(x & _ & _ & _ & ->)]; auto.
  destruct (lookup r g).
  - destruct X as (t' & L & R). exists t'. rewrite lookup_app, L. auto.
  - rewrite lookup_app, X. cbn [lookup]. destruct (String.eqb r WrapRE) eqn:E; auto. apply String.eqb_eq in E. contradiction.
Qed.

Definition rule_pext (kv kv' : string * parser) : Prop := fst kv' = fst kv /\ pext (snd kv) (snd kv').
Lemma rule_pext_lookup : forall rs rs', Forall2 rule_pext rs rs' -> forall r,
  match lookup r rs with Some t => exists t', lookup r rs' = Some t' /\ pext t t' | None => lookup r rs' = None end.
Proof.
  intros g g1 F r. induction F as [|[a t] [b u] g g1 [E X] F IH]; simpl; auto. simpl in E, X. subst b. destruct (String.eqb r a); eauto.
Qed.
Lemma rule_pext_ext : forall rs rs', Forall2 rule_pext rs rs' -> rules_ext rs rs'.
Proof.
  intros rs rs' F. constructor.
  - intros r _ L. pose proof (rule_pext_lookup _ _ F r) as X. rewrite L in X. auto.
  - intros r q _ L. pose proof (rule_pext_lookup _ _ F r) as X. rewrite L in X. auto.
Qed.
Lemma rule_pext_more : forall rs rs' p, Forall2 rule_pext rs rs' -> rules_ext rs (rs' ++ [(WrapRE, p)]).
Proof.
  intros rs rs' p F. constructor.
  - intros r N L. pose proof (rule_pext_lookup _ _ F r) as X. rewrite L in X. rewrite lookup_app, X. cbn [lookup].
    destruct (String.eqb r WrapRE) eqn:E; auto. apply String.eqb_eq in E. contradiction.
  - intros r q _ L. pose proof (rule_pext_lookup _ _ F r) as X. rewrite L in X. destruct X as (q' & L' & R). exists q'. rewrite lookup_app, L'. auto.
Qed.

Section Fns.
  Variables (E : engine) (v : option term) (g g' : grammar).
  Hypothesis LK : forall r, r <> WrapRE -> match lookup r g with Some t => exists t', lookup r g' = Some t' /\ wrote v t t' | None => lookup r g' = None end.
  Hypothesis FN : forall r t t', lookup r g = Some t -> wrote v t t' -> fn_ext (term_parser E t v) (term_parser E t' v).

  Lemma chase_ext : forall n t t' f f' h, wrote v t t' -> fn_ext f f' -> chase n (rule_fns E v g) t f = COk h ->
    forall m, n <= m -> exists h', chase m (rule_fns E v g') t' f' = COk h' /\ fn_ext h h'.
  Proof.
    induction n as [|n IH]; intros t t' f f' h R FS H m LE; destruct R; simpl in H; try discriminate; try (inversion H; subst; exists f'; split; [destruct m; reflexivity|exact FS]; fail).
    destruct m as [|m]; [lia|]. match goal with N : r <> WrapRE |- _ => rename N into NE end. simpl. rewrite lookup_rule_fns in *. pose proof (LK r NE) as X. destruct (lookup r g) as [t|] eqn:L; [|discriminate].
    destruct X as (t' & -> & R). simpl in *. eapply IH; [exact R|eapply FN; eauto|exact H|lia].
  Qed.
End Fns.

Lemma ctraverse_rules_ext : forall E v g1a n (all : list (string * (term * (string -> cres parser)))) m all' g g1 rs, Forall2 (pairs v) g g1 ->
  g1a = g1 ->
  (forall r t t' h, In (r, t) g -> wrote v t t' -> chase n all t (term_parser E t v) = COk h -> exists h', chase m all' t' (term_parser E t' v) = COk h' /\ fn_ext h h') ->
  ctraverse (fun kv : string * (term * (string -> cres parser)) => let '(r, (t, f)) := kv in cbind (chase n all t f) (fun f' => cbind (f' r) (fun p => COk (r, p)))) (rule_fns E v g) = COk rs ->
  exists rs', ctraverse (fun kv : string * (term * (string -> cres parser)) => let '(r, (t, f)) := kv in cbind (chase m all' t f) (fun f' => cbind (f' r) (fun p => COk (r, p)))) (rule_fns E v g1) = COk rs'
    /\ Forall2 rule_pext rs rs'.
Proof.
  intros E v g1a n all m all' g g1 rs F _. revert rs. induction F as [|[r t] [r1 t1] g g1 [EQ X] F IH]; intros rs C H.
  - simpl in *. inversion H; subst. exists []. auto.
  - simpl in EQ, X. subst r1. unfold rule_fns in *. cbn [map ctraverse fst snd] in *. apply cbind_ok in H as (y & Y & H). apply cbind_ok in H as (ys & YS & H). inversion H; subst.
    apply cbind_ok in Y as (h & Y1 & Y). apply cbind_ok in Y as (p & P & Y). inversion Y; subst.
    destruct (C r t t1 h) as (h' & -> & FS); simpl; auto. destruct (FS _ _ P) as (p' & -> & PX). cbn [cbind].
    destruct (IH ys) as (ys' & -> & FY); auto. { intros. eapply C; simpl; eauto. }
    exists ((r, p') :: ys'). split; auto. constructor; auto. split; auto.
Qed.

Lemma wrap_works_inner : forall E w g rs, wrap_works E w -> own_proper g -> compile_rules (rule_fns E (under w g) g) = COk rs -> wrap_works E (under w g).
Proof.
  intros E w g rs W OWN H x U. destruct (lookup WrapRE g) as [y|] eqn:L.
  - unfold under in *. rewrite L in *. inversion U; subst y. pose proof (OWN x (lookup_In _ _ _ L)) as P. split; auto.
    pose proof (compile_rules_lookup _ _ _ _ WrapRE H) as X. destruct (lookup WrapRE rs) as [q|] eqn:LR; [|rewrite L in X; discriminate].
    destruct X as (t & t' & LT & A & Q). rewrite L in LT. inversion LT; subst t. exists q.
    inversion A; subst; auto. contradiction.
  - unfold under in *. rewrite L in *. auto.
Qed.

Lemma compile_rules_ext : forall E w g g1 g' rs, own_proper g -> wrap_works E w -> Forall2 (pairs (under w g)) g g1 -> added w g g1 g' ->
  (forall r t t', In (r, t) g -> wrote (under w g) t t' -> fn_ext (term_parser E t (under w g)) (term_parser E t' (under w g))) ->
  compile_rules (rule_fns E (under w g) g) = COk rs ->
  exists rs', compile_rules (rule_fns E (under w g) g') = COk rs' /\ rules_ext rs rs' /\ (g' = g1 -> Forall2 rule_pext rs rs').
Proof.
  intros E w g g1 g' rs OWN W F A FN H. pose proof (added_lookup _ _ _ _ _ F A) as LK. unfold compile_rules in H.
  assert (LE : length (rule_fns E (under w g) g) <= length (rule_fns E (under w g) g')).
  { unfold rule_fns. rewrite !map_length. assert (length g1 = length g) by (clear -F; revert F; generalize (under w g); intros v F; induction F; simpl; auto).
    destruct A as [->|(x & _ & _ & _ & ->)]; [lia|]. rewrite app_length. simpl. lia. }
  assert (CH : forall r t t' h, In (r, t) g -> wrote (under w g) t t' -> chase (Datatypes.S (length (rule_fns E (under w g) g))) (rule_fns E (under w g) g) t (term_parser E t (under w g)) = COk h ->
    exists h', chase (Datatypes.S (length (rule_fns E (under w g) g'))) (rule_fns E (under w g) g') t' (term_parser E t' (under w g)) = COk h' /\ fn_ext h h').
  { intros r t t' h I R X. eapply chase_ext; [exact LK| |exact R|eapply FN; eauto|exact X|lia]. intros r0 t0 t0' L0 R0. eapply FN; eauto. apply lookup_In; eauto. }
  destruct (ctraverse_rules_ext E (under w g) g1 _ _ _ _ g g1 rs F eq_refl CH H) as (rs1 & H1 & F1).
  unfold compile_rules. destruct A as [->|(x & -> & LN & NS & ->)].
  - exists rs1. split; [exact H1|]. split; auto. apply rule_pext_ext; auto.
  - destruct (W x eq_refl) as [P (p & TP)].
    assert (UE : under (Some x) g = Some x) by (unfold under; rewrite LN; auto).
    assert (SPLIT : rule_fns E (under (Some x) g) (g1 ++ [(WrapRE, x)]) = rule_fns E (under (Some x) g) g1 ++ [(WrapRE, (x, term_parser E x (under (Some x) g)))])
      by (unfold rule_fns; rewrite map_app; reflexivity).
    assert (G : forall F : string * (term * (string -> cres parser)) -> cres (string * parser), ctraverse F (rule_fns E (under (Some x) g) g1) = COk rs1 ->
      F (WrapRE, (x, term_parser E x (under (Some x) g))) = COk (WrapRE, p) -> ctraverse F (rule_fns E (under (Some x) g) (g1 ++ [(WrapRE, x)])) = COk (rs1 ++ [(WrapRE, p)]))
      by (intros F0 A0 B0; rewrite SPLIT; apply ctraverse_app; auto).
    exists (rs1 ++ [(WrapRE, p)]). split; [|split].
    + apply G; [exact H1|]. replace (chase _ _ x _) with (COk (term_parser E x (under (Some x) g))) by (destruct x; try contradiction; reflexivity).
      cbn [cbind]. rewrite UE, TP. reflexivity.
    + apply rule_pext_more; auto.
    + intros EQ. exfalso. apply (f_equal (@length _)) in EQ. rewrite app_length in EQ. simpl in EQ. lia.
Qed.

Lemma scoped_result_ext : forall rs rs' p p', rules_ext rs rs' -> pext p p' -> pext (scoped_result rs p) (scoped_result rs' p').
Proof.
  intros rs rs' p p' RS P. inversion RS as [? ? N S]; subst. destruct P; simpl; try (constructor; auto; constructor; auto; fail).
  destruct (lookup r rs) as [q|] eqn:L.
  - destruct (S _ _ H L) as (q' & -> & Q). destruct Q; repeat (constructor; auto).
  - rewrite (N _ H L). constructor; auto.
Qed.

Lemma proper_wrote : forall w x y, proper_wrap x -> wrote w x y -> y = x.
Proof.
  intros w x y P R. destruct R; try contradiction; auto. f_equal. simpl in P. revert P.
  match goal with F : Forall2 (wrote w) ts us |- _ => induction F as [|a b ts us A F IH]; intros P; auto end.
  inversion P; subst. rewrite IH by auto. f_equal. destruct A; try contradiction; auto.
Qed.
Lemma wrote_ident : forall t w t', wrote w t t' -> ident_from_term t = ident_from_term t'.
Proof. induction t using term_ind'; intros w t' R; inversion R; subst; simpl; auto; eauto. destruct (String.eqb n ""); eauto. Qed.

Definition tp_goal (E : engine) (t : term) : Prop := forall w t', wrap_works E w -> wrote w t t' -> fn_ext (term_parser E t w) (term_parser E t' w).
Lemma tp_list : forall E ts, Forall (tp_goal E) ts -> forall w us ps, wrap_works E w -> Forall2 (wrote w) ts us ->
  ctraverse (fun x => cbind (term_parser E x w "") (fun p => COk (reg p))) ts = COk ps ->
  exists ps', ctraverse (fun x => cbind (term_parser E x w "") (fun p => COk (reg p))) us = COk ps' /\ Forall2 pext ps ps' /\ map ident_from_term us = map ident_from_term ts.
Proof.
  induction 1 as [|t ts T F IH]; intros w us ps W R H; inversion R; subst; simpl in H.
  - inversion H; subst. exists []. split; auto.
  - apply cbind_ok in H as (v & V & H). apply cbind_ok in V as (q & Q & V). apply cbind_ok in H as (vs2 & VS & H). inversion H; inversion V; subst.
    match goal with A : wrote w t _ |- _ => destruct (T w _ W A _ _ Q) as (q' & Q' & D); pose proof (wrote_ident _ _ _ A) as ID end.
    destruct (IH w l' vs2 W) as (vs' & VS' & D2 & ID2); auto. exists (reg q' :: vs'). simpl. rewrite Q'. cbn [cbind]. rewrite VS'.
    split; auto. split; [constructor; auto; apply pext_reg; auto|congruence].
Qed.

Lemma term_parser_ext : forall E t, tp_goal E t.
Proof.
  intros E. induction t using term_ind'; intros w t' W R rule p H1; inversion R; subst; cbn [term_parser] in *; try discriminate;
    try (inversion H1; subst; eexists; split; [reflexivity|constructor; auto]; fail).
  - exists p. split; auto. apply cbind_ok in H1 as (re & X & H1). apply cbind_ok in H1 as (re' & Y & H1). inversion H1; subst. constructor.
  - exists p. split; auto. apply cbind_ok in H1 as (re & X & H1). apply cbind_ok in H1 as (re' & Y & H1). inversion H1; subst. constructor.
  - apply cbind_ok in H1 as (ps & X & H1). inversion H1; subst.
    match goal with F : Forall2 (wrote w) ts _ |- _ => destruct (tp_list _ _ H _ _ _ W F X) as (ps' & -> & D & ->) end. eexists. split; [reflexivity|]. constructor; auto.
  - apply cbind_ok in H1 as (ps & X & H1). inversion H1; subst.
    match goal with F : Forall2 (wrote w) ts _ |- _ => destruct (tp_list _ _ H _ _ _ W F X) as (ps' & -> & D & _) end. eexists. split; [reflexivity|]. constructor; auto.
  - apply cbind_ok in H1 as (x & X & H1). apply cbind_ok in H1 as (y & Y & H1). inversion H1; subst.
    match goal with A : wrote w t1 ?a, B : wrote w t2 ?b |- _ =>
      destruct (IHt1 _ _ W A _ _ X) as (x' & X' & RX); destruct (IHt2 _ _ W B _ _ Y) as (y' & Y' & RY); rewrite (wrote_ident _ _ _ A), (wrote_ident _ _ _ B) end.
    rewrite X'. cbn [cbind]. rewrite Y'. cbn [cbind]. eexists. split; [reflexivity|]. apply pext_reg in RX, RY.
    assert (OP : pext (PQuant "" 0 1 (reg y)) (PQuant "" 0 1 (reg y'))) by (constructor; auto).
    constructor. constructor. apply Forall2_app; [destruct cs; auto|]. constructor; [|destruct ce; auto].
    repeat (constructor; auto).
  - apply cbind_ok in H1 as (x & X & H1). inversion H1; subst.
    match goal with A : wrote w t ?a |- _ => destruct (IHt _ _ W A _ _ X) as (x' & -> & RX) end. eexists. split; [reflexivity|]. constructor; auto. apply pext_reg; auto.
  - apply cbind_ok in H1 as (x & X & H1). inversion H1; subst.
    match goal with A : wrote w t ?a |- _ => destruct (IHt _ _ W A _ _ X) as (x' & -> & RX) end. eexists. split; [reflexivity|]. constructor; auto. apply pext_reg; auto.
  - match goal with A : wrote w t ?a |- _ => exact (IHt _ _ W A _ _ H1) end.
  - match goal with A : wrote (under w g) t _, B : forall x, In _ g -> _, C : Forall2 _ g _, D : added _ _ _ _ |- _ => rename A into RT; rename B into OWN; rename C into FR; rename D into AD end.
    apply cbind_ok in H1 as (rs & RS & H1). apply cbind_ok in H1 as (x & X & H1). inversion H1; subst.
    fold (under w g) in *. fold (rule_fns E (under w g) g) in RS.
    assert (U2 : match lookup WrapRE g' with Some w0 => Some w0 | None => w end = under w g).
    { unfold under. destruct AD as [->|(y & -> & LN & _ & ->)].
      - pose proof (pairs_lookup _ _ _ FR WrapRE) as L. destruct (lookup WrapRE g) as [y|] eqn:LG.
        + destruct L as (y' & -> & RY). f_equal. pose proof (OWN y (lookup_In _ _ _ LG)) as P. apply (proper_wrote _ _ _ P RY).
        + rewrite L. auto.
      - rewrite LN. rewrite lookup_app. pose proof (pairs_lookup _ _ _ FR WrapRE) as L. rewrite LN in L. rewrite L. cbn [lookup]. rewrite String.eqb_refl. auto. }
    rewrite U2. pose proof (wrap_works_inner _ _ _ _ W OWN RS) as W2.
    destruct (compile_rules_ext E w g g1 g' rs OWN W FR AD) as (rs' & RS' & RE & _); auto.
    { intros r u u' I RU. rewrite Forall_forall in H. apply (H _ I); auto. }
    unfold rule_fns in RS'. rewrite RS'. cbn [cbind]. destruct (IHt _ _ W2 RT _ _ X) as (x' & -> & RX). cbn [cbind].
    eexists. split; [reflexivity|]. apply scoped_result_ext; auto.
  - apply cbind_ok in H1 as (x & X & H1). inversion H1; subst.
    match goal with A : wrote w t ?a |- _ => destruct (IHt _ _ W A _ _ X) as (x' & -> & RX) end. eexists. split; [reflexivity|]. constructor; auto.
Qed.

Lemma prep_pairs : forall w g g1 gp, (forall x, w = Some x -> proper_wrap x) -> Forall2 (pairs w) g g1 ->
  ctraverse (fun kv : string * term => cbind (prep (snd kv)) (fun u => COk (fst kv, u))) g = COk gp ->
  exists gp1, ctraverse (fun kv : string * term => cbind (prep (snd kv)) (fun u => COk (fst kv, u))) g1 = COk gp1 /\ Forall2 (pairs w) gp gp1.
Proof.
  intros w g g1 gp W F. revert gp. induction F as [|[r t] [r1 t1] g g1 [EQ X] F IH]; intros gp H.
  - simpl in *. inversion H; subst. exists []. auto.
  - simpl in EQ, X. subst r1. cbn [ctraverse fst snd] in *. apply cbind_ok in H as (y & Y & H). apply cbind_ok in Y as (u & U & Y). apply cbind_ok in H as (ys & YS & H).
    inversion Y; subst. inversion H; subst. destruct (prep_wrote t w t1 u W X U) as (u' & -> & D). destruct (IH _ YS) as (ys' & -> & D2). cbn [cbind].
    exists ((r, u') :: ys'). split; auto. constructor; auto. split; auto.
Qed.

Theorem compile_again : forall E g g' ps, proper_wraps g -> Forall (fun kv : string * term => wrap_unused (snd kv)) g ->
  compile E g = COk ps -> left_behind g = COk g' ->
  exists ps', compile E g' = COk ps' /\ forall c f r s, parse_rule c f ps' r s = parse_rule c f ps r s.
Proof.
  intros E g g' ps [P1 P2] U H L. unfold compile in *. unfold left_behind in L. apply cbind_ok in H as (g1 & G1 & H). rewrite G1 in L. cbn [cbind] in L.
  rewrite (resolve_stacks_wrap _ _ P1 G1) in L. inversion L; subst g'. clear L. set (w := lookup WrapRE g) in *.
  assert (W : forall x, w = Some x -> proper_wrap x) by (intros x E1; apply P1; apply lookup_In; auto).
  assert (F : Forall2 (pairs w) g (map (fun kv => (fst kv, write_wrap w (snd kv))) g)).
  { assert (Q : forall kv, In kv g -> wrote w (snd kv) (write_wrap w (snd kv))).
    { intros [r t] I. rewrite Forall_forall in U. apply write_wrote; [|apply (U _ I)]. intros a b c d S J. eapply P2; eauto. }
    clear -Q. clearbody w. induction g as [|kv g IH]; simpl; constructor; [split; auto; apply Q; simpl; auto|]. apply IH. intros; apply Q; simpl; auto. }
  destruct (stacks_pairs _ _ _ _ P1 F G1) as (g1' & -> & F1). cbn [cbind]. apply cbind_ok in H as (rs & RS & H). inversion H; subst ps. clear H.
  unfold compile_resolved in *. apply cbind_ok in RS as (g2 & G2 & RS). destruct (prep_pairs _ _ _ _ W F1 G2) as (g2' & -> & F2). cbn [cbind].
  pose proof (stacks_own _ _ P1 G1) as OWN1. destruct (prep_rules_facts _ _ OWN1 G2) as [OWN2 LW].
  assert (UE : under None g2 = w). { unfold under. rewrite LW, (resolve_stacks_wrap _ _ P1 G1). fold w. destruct w; auto. }
  assert (LE : lookup WrapRE g2 = w) by (rewrite LW, (resolve_stacks_wrap _ _ P1 G1); auto).
  assert (LE' : lookup WrapRE g2' = w).
  { pose proof (pairs_lookup _ _ _ F2 WrapRE) as X. rewrite LE in X. destruct w as [x|]; auto. destruct X as (y & -> & R). f_equal. eapply proper_wrote; eauto. }
  rewrite LE'. rewrite LE in RS. fold (rule_fns E w g2) in RS. fold (rule_fns E w g2').
  assert (WN : wrap_works E None) by (intros x X; discriminate).
  pose proof RS as RS0. rewrite <- UE in RS0. pose proof (wrap_works_inner _ _ _ _ WN OWN2 RS0) as W2.
  destruct (compile_rules_ext E None g2 g2' g2' rs OWN2 WN) as (rs' & RS' & _ & PX); auto.
  { rewrite UE. auto. } { left; auto. } { intros r t t' I R. apply term_parser_ext; auto. }
  rewrite UE in RS'. rewrite RS'. cbn [cbind]. eexists. split; [reflexivity|]. specialize (PX eq_refl).
  intros c f r s. unfold parse_rule. cbn [p_rules]. pose proof (rule_pext_lookup _ _ PX r) as X. destruct (lookup r rs) as [q|].
  - destruct X as (q' & -> & Q). rewrite (parse_ext c f [rs] [rs'] q q'); auto. constructor; auto. apply rule_pext_ext; auto.
  - rewrite X. auto.
Qed.
