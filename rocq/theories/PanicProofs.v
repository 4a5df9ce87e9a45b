(** Parsers of callable grammars never panic. *)
From Verif Require Import Base Scanner ScannerSpec ScannerProofs Syntax Engine Resolve Compile Parse PegSpec CompileProofs PegProofs FuelProofs
  PegComplete TopProofs DerivSpec FlowSpec FlowProofs FordProofs PanicSpec.
Local Open Scope nat_scope.

Definition fine_token (E : engine) (re : bytes) : Prop := exists pat, re = anchor ++ pat /\ well_grouped E pat.

(** The children a delimiter parser is made of. *)
Definition delim_parts (cs ce : bool) (pt psep : parser) (i1 i2 : list string) : list parser :=
  (if cs then [PQuant "" 0 1 psep] else []) ++
  PSeq "" i1 [pt; PQuant "" 0 0 (PSeq "" i2 [psep; pt])] :: (if ce then [PQuant "" 0 1 psep] else []).

(** Parsers whose references are hooked up and defined in [e]. *)
Inductive pg (E : engine) : env -> parser -> Prop :=
| pg_link : forall e x, resolve_link e x <> None -> pg E e (PLink x)
| pg_s : forall e r x re, fine_token E re -> pg E e (PS r x re)
| pg_re : forall e r x re, fine_token E re -> pg E e (PRE r x re)
| pg_ext : forall e x, pg E e (PExt x)
| pg_seq : forall e r ids ps, Forall (pg E e) ps -> pg E e (PSeq r ids ps)
| pg_oneof : forall e r ps, Forall (pg E e) ps -> pg E e (POneof r ps)
| pg_look : forall e r p, pg E e p -> pg E e (PLook r p)
| pg_quant : forall e r mn mx p, pg E e p -> pg E e (PQuant r mn mx p)
| pg_cut : forall e p, pg E e p -> pg E e (PCut p)
| pg_delim : forall e r a cs ce rule ids i1 i2 pt psep, pg E e pt -> pg E e psep ->
    pg E e (PDelim r a cs ce (PSeq rule ids (delim_parts cs ce pt psep i1 i2)))
| pg_scoped : forall e rs p, (forall r q, lookup r rs = Some q -> pg E (rs :: e) q) -> pg E (rs :: e) p -> pg E e (PScoped rs p).

Inductive genv (E : engine) : env -> Prop :=
| ge_nil : genv E []
| ge_cons : forall rs e, (forall r q, lookup r rs = Some q -> pg E (rs :: e) q) -> genv E e -> genv E (rs :: e).

Lemma resolve_genv : forall E e x q e', genv E e -> resolve_link e x = Some (q, e') -> genv E e' /\ pg E e' q.
Proof.
  intros E e x q e' G. induction G as [|rs e H G IH]; simpl; intros R; [discriminate|].
  destruct (lookup x rs) as [q0|] eqn:L; auto. inversion R; subst. split; [constructor; auto|eauto].
Qed.

(** * What sequences and repetitions return *)

Definition from (run : parser -> scope -> scanner -> nat -> out) (p : parser) (v : tree) : Prop :=
  exists sc s k s' k', run p sc s k = (ROk v, s', k').

Lemma seq_result : forall c run iscut rule ps ids sc s k acc v s' k',
  seq_loop c run iscut rule ids ps sc s k acc = (ROk v, s', k') ->
  exists l, v = Node (rule_or_alt rule seqTag) XNone (acc ++ l) /\ Forall2 (from run) ps l.
Proof.
  intros c run iscut rule. induction ps as [|p ps IH]; intros ids sc s k acc v s' k' H; cbn [seq_loop] in H.
  - inversion H; subst. exists []. rewrite app_nil_r. auto.
  - destruct (run p sc s k) as [[[v1|er| |] s1] k1] eqn:R; try discriminate; [|destruct (is_fatal er); discriminate].
    destruct (if iscut p then _ else _) as [sc1 k2]. apply IH in H as (l & -> & F).
    exists (v1 :: l). split; [rewrite <- app_assoc; reflexivity|]. constructor; auto. unfold from. eauto 10.
Qed.

Lemma quant_result : forall run rule mn mx p n sc pc mc s k acc v s' k',
  quant_loop run n rule mn mx p sc pc mc s k acc = (ROk v, s', k') ->
  exists l, v = Node (rule_or_alt rule quantTag) XNone (acc ++ l) /\ Forall (from run p) l.
Proof.
  intros run rule mn mx p.
  assert (FIN : forall (b : bool) er acc (s s' : scanner) (k k' : nat) v,
    (if b then (ROk (Node (rule_or_alt rule quantTag) XNone acc), s, k) else (RErr er, s, k)) = (ROk v, s', k') ->
    exists l, v = Node (rule_or_alt rule quantTag) XNone (acc ++ l) /\ Forall (from run p) l).
  { intros b er acc s s' k k' v H. destruct b; inversion H; subst. exists []. rewrite app_nil_r. auto. }
  induction n as [|n IH]; intros sc pc mc s k acc v s' k' H; cbn [quant_loop] in H; destruct (_ || _); try discriminate; eauto.
  destruct (run p sc s k) as [[[v1|er| |] s1] k1] eqn:R; try discriminate.
  - apply IH in H as (l & -> & F). exists (v1 :: l). split; [rewrite <- app_assoc; reflexivity|]. constructor; auto. unfold from. eauto 10.
  - destruct (not_my_fatal er mc); [discriminate|]. eauto.
Qed.

Section Panic.
  Variable c : config.
  Hypothesis no_escape : cf_esc c = None.
  Hypothesis T : tame c.
  Notation E := (cf_eng c).

  Lemma run_seq : forall f e rule ids ps v, from (parse c f e) (PSeq rule ids ps) v ->
    exists f' l, v = Node (rule_or_alt rule seqTag) XNone l /\ Forall2 (from (parse c f' e)) ps l.
  Proof.
    intros [|f] e rule ids ps v (sc & s & k & s' & k' & H); [discriminate|]. cbn [parse] in H. unfold with_escape in H. rewrite no_escape in H.
    apply seq_result in H as (l & -> & F). exists f, l. auto.
  Qed.
  Lemma run_quant : forall f e rule mn mx p v, from (parse c f e) (PQuant rule mn mx p) v ->
    exists f' l, v = Node (rule_or_alt rule quantTag) XNone l /\ Forall (from (parse c f' e) p) l.
  Proof.
    intros [|f] e rule mn mx p v (sc & s & k & s' & k' & H); [discriminate|]. cbn [parse] in H. unfold with_escape in H. rewrite no_escape in H.
    destruct (replace_cut c false sc k) as [[[? ?] ?] ?]. apply quant_result in H as (l & -> & F). exists f, l. auto.
  Qed.

  Lemma pairs_result : forall f e i2 psep pt l, Forall (from (parse c f e) (PSeq "" i2 [psep; pt])) l ->
    exists pairs, pairs_flat l pairs /\ length pairs = 2 * length l.
  Proof.
    intros f e i2 psep pt l F. induction F as [|v l V F IH]; [exists []; split; [constructor|auto]|].
    destruct IH as (pairs & P & L). apply run_seq in V as (f' & vs & -> & F2).
    inversion F2 as [|? a ? l1 A F3]; subst. inversion F3 as [|? b ? l2 B F4]; subst. inversion F4; subst.
    exists (a :: b :: pairs). split; [|simpl; lia]. constructor; auto. unfold pair_of. eauto.
  Qed.

  Lemma opt_result : forall f e psep v lead, from (parse c f e) (PQuant "" 0 1 psep) v ->
    exists o m, opt_sep (Some v) o lead /\ length o = 2 * m.
  Proof.
    intros f e psep v lead H. apply run_quant in H as (f' & l & -> & _). simpl. destruct l as [|x l].
    - exists [], 0. auto.
    - exists (if lead then [Empty; x] else [x; Empty]), 1. destruct lead; auto.
  Qed.

  Lemma delim_no_panic : forall f e r a cs ce rule ids i1 i2 pt psep v,
    from (parse c f e) (PSeq rule ids (delim_parts cs ce pt psep i1 i2)) v -> delim_node r a cs ce v <> None.
  Proof.
    intros f e r a cs ce rule ids i1 i2 pt psep v H. apply run_seq in H as (f' & l & -> & F). unfold delim_parts in F.
    assert (CORE : forall w, from (parse c f' e) (PSeq "" i1 [pt; PQuant "" 0 0 (PSeq "" i2 [psep; pt])]) w ->
      exists first more pairs, (exists t1 x1 t2 x2 r, w = Node t1 x1 (first :: Node t2 x2 more :: r)) /\
        pairs_flat more pairs /\ length pairs = 2 * length more).
    { intros w W. apply run_seq in W as (f2 & l2 & -> & F2).
      inversion F2 as [|? x ? l3 A F3]; subst. inversion F3 as [|? b ? l4 B F4]; subst. inversion F4; subst.
      apply run_quant in B as (f3 & ms & -> & FM). destruct (pairs_result _ _ _ _ _ _ FM) as (pairs & P & L). exists x, ms, pairs. eauto 10. }
    assert (TRAIL : forall l2, Forall2 (from (parse c f' e)) (if ce then [PQuant "" 0 1 psep] else []) l2 ->
      exists o m, opt_sep (if ce then hd_error l2 else None) o false /\ length o = 2 * m /\ (ce = true -> l2 <> [])).
    { intros l2 F2. destruct ce.
      - inversion F2 as [|? x ? l3 A F3]; subst. destruct (opt_result _ _ _ _ false A) as (o & m & O & L). exists o, m. split; auto. split; auto. discriminate.
      - exists [], 0. simpl. split; auto. split; auto. discriminate. }
    assert (FIN : exists items n, delim_items cs ce (Node (rule_or_alt rule seqTag) XNone l) items /\ length items = 2 * n + 1).
    { destruct cs; simpl in F.
      - inversion F as [|? v1 ? l1 D1 F1]; subst. inversion F1 as [|? v2 ? l2 D2 F2]; subst.
        destruct (opt_result _ _ _ _ true D1) as (lead & m1 & OL & LL).
        destruct (CORE _ D2) as (first & more & pairs & C & PF & LP).
        destruct (TRAIL _ F2) as (trail & m2 & OT & LT & NT).
        exists (lead ++ first :: pairs ++ trail), (m1 + length more + m2). split.
        + exists (rule_or_alt rule seqTag), XNone, [v1], v2, l2, lead, trail, first, more, pairs. repeat (split; auto).
        + rewrite app_length. simpl. rewrite app_length. lia.
      - inversion F as [|? v2 ? l2 D2 F2]; subst.
        destruct (CORE _ D2) as (first & more & pairs & C & PF & LP).
        destruct (TRAIL _ F2) as (trail & m2 & OT & LT & NT).
        exists ([] ++ first :: pairs ++ trail), (length more + m2). split.
        + exists (rule_or_alt rule seqTag), XNone, [], v2, l2, [], trail, first, more, pairs.
          split; [auto|split; [auto|split; [reflexivity|repeat (split; auto)]]].
        + simpl. rewrite app_length. lia. }
    destruct FIN as (items & n & DI & L). destruct (delim_result_exists r a n items L) as [v' V].
    rewrite (delim_node_complete _ _ _ _ _ _ _ DI V). discriminate.
  Qed.

  (** * No panic *)

  Lemma token_no_panic : forall re s, in_range s -> fine_token E re -> eat_token E re s <> TokPanic.
  Proof.
    intros re s (o & i & n & W) (pat & -> & G). unfold eat_token, eat_regexp.
    rewrite (window_slice _ _ _ _ W). match goal with |- context [re_find ?a ?b ?d] => destruct (re_find a b d) as [locs|] eqn:F end; [|discriminate].
    destruct (G _ _ F) as (b & gs & -> & L). simpl. destruct gs as [|g1 [|g2 [|g3 gs]]]; simpl in *; try lia; discriminate.
  Qed.

  Definition calm (run : parser -> scope -> scanner -> nat -> out) (p : parser) : Prop :=
    forall sc s k, in_range s -> out_res (run p sc s k) <> RPanic /\
      forall v s' k', run p sc s k = (ROk v, s', k') -> in_range s'.

  Lemma seq_calm : forall run iscut rule ps, Forall (calm run) ps -> forall ids sc s k acc, in_range s ->
    out_res (seq_loop c run iscut rule ids ps sc s k acc) <> RPanic.
  Proof.
    intros run iscut rule ps F. induction F as [|p ps P F IH]; intros ids sc s k acc R; cbn [seq_loop]; [discriminate|].
    destruct (P sc s k R) as [P1 P2]. destruct (run p sc s k) as [[[v1|er| |] s1] k1]; try discriminate; auto.
    - destruct (if iscut p then _ else _) as [sc1 k2]. apply IH. eauto.
    - destruct (is_fatal er); discriminate.
  Qed.
  Lemma quant_calm : forall run rule mn mx p, calm run p -> forall n sc pc mc s k acc, in_range s ->
    out_res (quant_loop run n rule mn mx p sc pc mc s k acc) <> RPanic.
  Proof.
    intros run rule mn mx p P. induction n as [|n IH]; intros sc pc mc s k acc R; cbn [quant_loop]; destruct (_ || _); try discriminate;
      try (destruct (Nat.leb mn (length acc)); discriminate).
    destruct (P sc s k R) as [P1 P2]. destruct (run p sc s k) as [[[v1|er| |] s1] k1]; try discriminate; auto.
    - apply IH. eauto.
    - destruct (not_my_fatal er mc); [discriminate|]. destruct (Nat.leb mn (length acc)); discriminate.
  Qed.
  Lemma oneof_calm : forall run rule ps, Forall (calm run) ps -> forall i sc pc mc s fur k, in_range s ->
    out_res (oneof_loop run rule i ps sc pc mc s fur k) <> RPanic.
  Proof.
    intros run rule ps F. induction F as [|p ps P F IH]; intros i sc pc mc s fur k R; cbn [oneof_loop]; [discriminate|].
    destruct (P sc s k R) as [P1 P2]. destruct (run p sc s k) as [[[v1|er| |] s1] k1]; try discriminate; auto.
    destruct (not_my_fatal er mc); [discriminate|]. auto.
  Qed.

  Lemma parse_calm : forall f e p, genv E e -> pg E e p -> calm (parse c f e) p.
  Proof.
    assert (RANGE : forall f e p sc s k v s' k', in_range s -> parse c f e p sc s k = (ROk v, s', k') -> in_range s').
    { intros f e p sc s k v s' k' R H. eapply forward_range. eapply (parse_moves_forward c T f e p sc s k R); eauto; discriminate. }
    induction f as [|f IH]; intros e p G P sc s k R; (split; [|intros; eapply RANGE; eauto]); [discriminate|].
    assert (SUB : forall ps, Forall (pg E e) ps -> Forall (calm (parse c f e)) ps).
    { intros ps F. eapply Forall_impl; [|exact F]. intros a A. apply IH; auto. }
    destruct P; cbn [parse]; unfold with_escape; try rewrite no_escape.
    - destruct (resolve_link e x) as [[q e']|] eqn:RL; [|congruence]. destruct (resolve_genv _ _ _ _ _ G RL) as [G' Q]. apply IH; auto.
    - pose proof (token_no_panic re s R H). destruct (eat_token E re s); try discriminate. congruence.
    - pose proof (token_no_panic re s R H). destruct (eat_token E re s); try discriminate. congruence.
    - destruct (lookup x (cf_ext c)) as [fn|]; [|discriminate]. destruct (fn sc s) as [s1 [t|err]]; discriminate.
    - apply seq_calm; auto.
    - destruct (replace_cut c false sc k) as [[[? ?] ?] ?]. apply oneof_calm; auto.
    - destruct (IH e p G P sc s k R) as [A _]. destruct (parse c f e p sc s k) as [[[v1|er| |] s1] k1]; try discriminate. auto.
    - destruct (replace_cut c false sc k) as [[[? ?] ?] ?]. apply quant_calm; auto.
    - apply IH; auto.
    - assert (PC : pg E e (PSeq rule ids (delim_parts cs ce pt psep i1 i2))).
      { constructor. unfold delim_parts. apply Forall_app. split; [destruct cs; repeat (constructor; auto)|].
        constructor; [repeat (constructor; auto)|destruct ce; repeat (constructor; auto)]. }
      destruct (IH e _ G PC sc s k R) as [A _].
      match goal with |- context [parse c f e ?q sc s k] => destruct (parse c f e q sc s k) as [[[v1|er| |] s1] k1] eqn:Q end; try discriminate; auto.
      destruct (delim_node r a cs ce v1) eqn:D; [discriminate|]. exfalso. revert D. eapply delim_no_panic. unfold from. do 5 eexists. exact Q.
    - apply IH; auto. constructor; auto.
  Qed.
End Panic.

(** * Compiled parsers of callable terms *)

Definition names_match (e : env) (gs : list grammar) : Prop := forall x, existsb (has x) gs = true -> resolve_link e x <> None.

Lemma names_cons : forall E w g rs e gs, compile_rules (rule_fns E w g) = COk rs -> names_match e gs -> names_match (rs :: e) (g :: gs).
Proof.
  intros E w g rs e gs H N x X. simpl in *. pose proof (compile_rules_lookup _ _ _ _ x H) as L. destruct (lookup x rs); [discriminate|].
  apply orb_true_iff in X as [X|X]; auto. unfold has in X. rewrite L in X. discriminate.
Qed.

Lemma pattern_fine : forall E w x pre re re', (forall pat, token_pattern w x pre pat -> well_grouped E pat) ->
  apply_wrap w x pre = COk re -> must_compile E re = COk re' -> fine_token E re'.
Proof.
  intros E w x pre re re' P H M. unfold must_compile in M. destruct (re_valid E (anchor ++ re)); [|discriminate].
  exists re. split; [congruence|]. apply P. apply apply_wrap_spec; auto.
Qed.

Lemma patterns_list : forall P w ts, (fix go l := match l with [] => True | u :: l' => patterns P w u /\ go l' end) ts <-> Forall (patterns P w) ts.
Proof. intros P w. induction ts as [|t ts IH]; split; intros H; [constructor|exact Logic.I| |]. - destruct H. constructor; auto. apply IH; auto. - inversion H; subst. split; auto. apply IH; auto. Qed.
Lemma patterns_rules : forall P w (g : grammar), (fix go (l : list (string * term)) := match l with [] => True | kv :: l' => patterns P w (snd kv) /\ go l' end) g <->
  Forall (fun kv => patterns P w (snd kv)) g.
Proof. intros P w. induction g as [|t ts IH]; split; intros H; [constructor|exact Logic.I| |]. - destruct H. constructor; auto. apply IH; auto. - inversion H; subst. split; auto. apply IH; auto. Qed.

Section Link.
  Variable E : engine.

  Definition links (t : term) : Prop := forall gs e w rule p, callable gs t = true -> patterns (well_grouped E) w t -> names_match e gs ->
    term_parser E t w rule = COk p -> pg E e (reg p).

  Lemma links_list : forall ts, Forall links ts -> forall gs e w, forallb (callable gs) ts = true -> Forall (patterns (well_grouped E) w) ts -> names_match e gs ->
    forall ps, ctraverse (fun x => cbind (term_parser E x w "") (fun p => COk (reg p))) ts = COk ps -> Forall (pg E e) ps.
  Proof.
    intros ts F. induction F as [|t ts L F IH]; intros gs e w C P N ps H; simpl in H; [inversion H; constructor|].
    apply cbind_ok in H as (q & Q & H). apply cbind_ok in Q as (p & Q & X). inversion X; subst. apply cbind_ok in H as (qs & QS & H). inversion H; subst.
    simpl in C. apply andb_true_iff in C as [C1 C2]. inversion P; subst. constructor; eauto.
  Qed.

  (** The rules of a grammar, given that their terms link. *)
  Lemma links_rules : forall g gs e w rs, Forall (fun kv => links (snd kv)) g ->
    forallb (fun kv => callable (g :: gs) (snd kv) && (is_alias (snd kv) || negb (headrule (snd kv)))) g = true ->
    Forall (fun kv => patterns (well_grouped E) w (snd kv)) g ->
    names_match e gs -> compile_rules (rule_fns E w g) = COk rs ->
    forall r q, lookup r rs = Some q -> pg E (rs :: e) q /\ is_prule q = false.
  Proof.
    intros g gs e w rs L C P N H r q Lq. pose proof (names_cons _ _ _ _ _ _ H N) as N'.
    pose proof (compile_rules_lookup _ _ _ _ r H) as X. rewrite Lq in X. destruct X as (t & t' & Lt & A & Q).
    rewrite forallb_forall in C. rewrite Forall_forall in L, P.
    assert (IN : exists r', In (r', t') g).
    { clear -Lt A. assert (G : forall t t', alias_body g t t' -> (exists r', In (r', t) g) -> exists r', In (r', t') g).
      { induction 1; auto. intros _. apply IHalias_body. apply lookup_In in H. eauto. }
      apply (G _ _ A). apply lookup_In in Lt. eauto. }
    destruct IN as (r' & IN). pose proof (C _ IN) as C1. simpl in C1. apply andb_true_iff in C1 as [C1 C2].
    assert (NP : is_prule q = false).
    { eapply headrule_false; eauto. apply orb_true_iff in C2 as [C2|C2]; [|apply negb_true_iff; auto].
      destruct t'; try discriminate. exfalso. eapply alias_body_not_rule; eauto. }
    split; auto. rewrite <- (reg_not_prule q NP). eapply (L _ IN); eauto.
  Qed.

  Lemma link : forall t, links t.
  Proof.
    induction t using term_ind'; intros gs e w rule p C P N H0; cbn [term_parser callable] in *; try discriminate.
    - inversion H0; subst. constructor. auto.
    - apply cbind_ok in H0 as (x & X & H0). apply cbind_ok in H0 as (y & Y & H0). inversion H0; subst. constructor. eapply pattern_fine; eauto.
    - apply cbind_ok in H0 as (x & X & H0). apply cbind_ok in H0 as (y & Y & H0). inversion H0; subst. constructor. eapply pattern_fine; eauto.
    - inversion H0; subst. constructor.
    - apply cbind_ok in H0 as (ps & X & H0). inversion H0; subst. constructor. apply (patterns_list _ w ts) in P. eapply links_list; eauto.
    - apply cbind_ok in H0 as (ps & X & H0). inversion H0; subst. constructor. apply (patterns_list _ w ts) in P. eapply links_list; eauto.
    - apply cbind_ok in H0 as (x & X & H0). apply cbind_ok in H0 as (y & Y & H0). apply andb_true_iff in C as [C1 C2]. destruct P as [P1 P2].
      inversion H0; subst; clear H0. simpl. 
      apply (pg_delim E e rule a cs ce rule _ [ident_from_term t1; ""%string] [ident_from_term t2; ident_from_term t1] (reg x) (reg y)).
      + eapply IHt1; eauto.
      + eapply IHt2; eauto.
    - apply cbind_ok in H0 as (x & X & H0). inversion H0; subst. constructor. eapply IHt; eauto.
    - apply cbind_ok in H0 as (x & X & H0). inversion H0; subst. constructor. eapply IHt; eauto.
    - eapply IHt; eauto.
    - apply andb_true_iff in C as [C1 C2]. destruct P as [P1 P2]. apply patterns_rules in P2.
      change (match lookup WrapRE g with Some w0 => Some w0 | None => w end) with (wrap_in g w) in H0.
      apply cbind_ok in H0 as (rs & RS & H0). apply cbind_ok in H0 as (x & X & H0). inversion H0; subst; clear H0.
      change (compile_rules (rule_fns E (wrap_in g w) g) = COk rs) in RS.
      pose proof (links_rules g gs e (wrap_in g w) rs H C2 P2 N RS) as R.
      pose proof (names_cons _ _ _ _ _ _ RS N) as N'.
      assert (R1 : forall r q, lookup r rs = Some q -> pg E (rs :: e) q) by (intros r q L; exact (proj1 (R _ _ L))).
      pose proof (IHt (g :: gs) (rs :: e) _ _ _ C1 P1 N' X) as PX.
      destruct (is_prule x) eqn:PR.
      + destruct x; try discriminate. simpl. inversion PX as [? ? D| | | | | | | | | |]; subst. simpl in D.
        destruct (lookup t0 rs) as [q|] eqn:L.
        * pose proof (R _ _ L) as [Q NP]. destruct q; try discriminate; simpl; constructor; auto.
        * simpl. constructor. auto.
      + rewrite (reg_not_prule x PR) in PX. destruct x; try discriminate; simpl; constructor; auto.
    - apply cbind_ok in H0 as (x & X & H0). inversion H0; subst. apply andb_true_iff in C as [C1 C2]. apply negb_true_iff in C1. simpl. constructor.
      rewrite <- (reg_not_prule x); [eapply IHt; eauto|]. eapply headrule_false; eauto.
  Qed.
End Link.

Theorem parse_no_panic : forall c g g2 ps, cf_esc c = None -> tame c -> compile (cf_eng c) g = COk ps -> resolve_all g = COk g2 ->
  NoDup (keys g2) -> callable_grammar g2 = true -> patterns_grammar (well_grouped (cf_eng c)) g2 ->
  forall f r s, in_range s -> lookup r g2 <> None -> fst (parse_rule c f ps r s) <> RPanic.
Proof.
  intros c g g2 ps NE T H RA ND C P f r s R D.
  destruct (compile_resolve_all _ _ _ H) as (g2' & RA' & CR). rewrite RA in RA'. inversion RA'; subst g2'; clear RA'.
  assert (N : names_match [] []) by (intros x X; discriminate).
  assert (PF : Forall (fun kv => patterns (well_grouped (cf_eng c)) (wrap_of [g2]) (snd kv)) g2).
  { rewrite Forall_forall. intros [k t] IN. apply In_lookup in IN; auto. simpl. specialize (P _ _ IN).
    destruct (lookup WrapRE g2); auto. }
  assert (LK : Forall (fun kv : string * term => links (cf_eng c) (snd kv)) g2).
  { rewrite Forall_forall. intros kv _. apply link. }
  pose proof (links_rules (cf_eng c) g2 [] [] (wrap_of [g2]) (p_rules ps) LK C PF N CR) as X.
  assert (G : genv (cf_eng c) [p_rules ps]) by (constructor; [intros r0 q L; exact (proj1 (X _ _ L))|constructor]).
  unfold parse_rule. destruct (lookup r (p_rules ps)) as [q|] eqn:L.
  - destruct (parse_calm c NE T f [p_rules ps] q G (proj1 (X _ _ L)) empty_scope s 0 R) as [A B].
    destruct (parse c f [p_rules ps] q empty_scope s 0) as [[[v|er| |] s'] k'] eqn:Q; try discriminate; auto.
    destruct (B _ _ _ eq_refl) as (o & i & n & W). unfold sstring. destruct W as (W1 & W2). rewrite W1.
    pose proof (window_slice s' o i n (conj W1 W2)) as WS. rewrite WS. destruct (firstn _ _); discriminate.
  - pose proof (compile_rules_lookup _ _ _ _ r CR) as Y. rewrite L in Y. congruence.
Qed.
