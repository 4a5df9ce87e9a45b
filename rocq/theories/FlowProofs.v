(** Parsing moves forward; what the leaves of a tree cover. *)
From Verif Require Import Base Scanner ScannerSpec ScannerProofs Syntax Engine Resolve Compile Parse
  PegSpec DerivSpec FlowSpec CompileProofs PegProofs TopProofs DerivProofs.
Local Open Scope Z_scope.

(** * Forward *)

Lemma forward_refl : forall s, in_range s -> forward s s.
Proof. intros s (o & i & n & W). exists o, i, n, 0%nat. split; auto. split; [lia|]. rewrite Nat.add_0_r, Nat.sub_0_r. auto. Qed.

Lemma window_fun : forall s o i n o' i' n', window s o i n -> window s o' i' n' -> o = o' /\ i = i' /\ n = n'.
Proof. unfold window. intros. intuition; try congruence; lia. Qed.

Lemma forward_range : forall s s', forward s s' -> in_range s'.
Proof. intros s s' (o & i & n & j & _ & _ & W). do 3 eexists. eauto. Qed.
Lemma forward_range_l : forall s s', forward s s' -> in_range s.
Proof. intros s s' (o & i & n & j & W & _). do 3 eexists. eauto. Qed.

Lemma forward_trans : forall a b c, forward a b -> forward b c -> forward a c.
Proof.
  intros a b c (o & i & n & j & W1 & L1 & W2) (o' & i' & n' & j' & W3 & L2 & W4).
  destruct (window_fun _ _ _ _ _ _ _ W2 W3) as (-> & <- & <-).
  exists o', i, n, (j + j')%nat. split; auto. split; [lia|].
  replace (i + (j + j'))%nat with (i + j + j')%nat by lia.
  replace (n - (j + j'))%nat with (n - j - j')%nat by lia. auto.
Qed.

Lemma window_length : forall s o i n t, window s o i n -> sslice s = Some t -> length t = n.
Proof.
  intros s o i n t W H. rewrite (window_slice _ _ _ _ W) in H. inversion H; subst.
  destruct W as (_ & _ & _ & L). rewrite firstn_length, skipn_length. lia.
Qed.

Lemma skip_window : forall s o i n b, window s o i n -> 0 <= b -> b <= Z.of_nat n ->
  window (skip s b) o (i + Z.to_nat b) (n - Z.to_nat b).
Proof. unfold window, skip; simpl. intros s o i n b (A & B & C & D) H1 H2. repeat split; auto; lia. Qed.

Lemma slice_window : forall s o i n a b, window s o i n -> 0 <= a -> a <= b -> b <= Z.of_nat n ->
  window (slice s a b) o (i + Z.to_nat a) (Z.to_nat (b - a)).
Proof. unfold window, slice; simpl. intros s o i n a b (A & B & C & D) H1 H2 H3. repeat split; auto; lia. Qed.

Lemma skip_forward : forall s t b, in_range s -> sslice s = Some t -> 0 <= b -> b <= blen t -> forward s (skip s b).
Proof.
  intros s t b (o & i & n & W) H1 H2 H3. unfold blen in H3. rewrite (window_length _ _ _ _ _ W H1) in H3.
  exists o, i, n, (Z.to_nat b). split; auto. split; [lia|]. apply skip_window; auto.
Qed.

Lemma eat_regexp_forward : forall E re s nc m caps n rest, engine_ok E -> in_range s ->
  eat_regexp E re s nc = EatOk m caps n rest -> forward s rest.
Proof.
  intros E re s nc m caps n rest OK R H. unfold eat_regexp in H.
  destruct (sslice s) as [t|] eqn:S; [|discriminate].
  destruct (re_find E re t) as [[|[a b] gs]|] eqn:F; try discriminate.
  destruct (a =? 0); simpl in H; [|discriminate]. inversion H; subst.
  destruct (ok_shape E OK _ _ _ F) as (a' & b' & gs' & Q & ? & ? & ? & _). inversion Q; subst.
  eapply skip_forward; eauto. lia.
Qed.

Lemma eat_token_forward : forall E re s leaf rest, engine_ok E -> in_range s ->
  eat_token E re s = TokOk leaf rest -> forward s rest.
Proof.
  intros E re s leaf rest OK R H. unfold eat_token in H.
  destruct (eat_regexp E re s 2) as [| |m caps n r] eqn:Q; try discriminate.
  apply eat_regexp_forward in Q; auto.
  destruct n as [|[|[|n]]]; try discriminate; destruct caps as [|c0 [|c1 caps]]; try discriminate;
    inversion H; subst; auto.
Qed.

Definition fwd (inp : scanner) (o : out) : Prop :=
  match o with
  | (ROk _, s', _) | (RErr _, s', _) => forward inp s'
  | _ => True
  end.

Definition run_fwd (run : parser -> scope -> scanner -> nat -> out) : Prop :=
  forall p sc inp k, in_range inp -> fwd inp (run p sc inp k).

Lemma fwd_trans : forall a b o, forward a b -> fwd b o -> fwd a o.
Proof. intros a b [[[v|e| |] s'] k'] H F; simpl in *; eauto using forward_trans. Qed.

Lemma with_escape_fwd : forall c sc inp k cont, tame c -> in_range inp -> fwd inp (cont tt) ->
  fwd inp (with_escape c sc inp k cont).
Proof.
  intros c sc inp k cont (OK & X1 & X2) R F. unfold with_escape. destruct (cf_esc c) as [e|] eqn:Q; auto.
  destruct (eat_regexp (cf_eng c) (esc_open e) inp 0) as [| |m caps n inp1] eqn:Q1; simpl; auto.
  pose proof (eat_regexp_forward _ _ _ _ _ _ _ _ OK R Q1) as F1.
  pose proof (X2 e eq_refl sc inp1 (forward_range _ _ F1)) as [W1 W2].
  assert (CL : forall te inp2, forward inp1 inp2 -> fwd inp
    match eat_regexp (cf_eng c) (esc_close e) inp2 0 with
    | EatPanic => (RPanic, inp2, k) | EatNo => (RErr EOther, inp2, k) | EatOk _ _ _ inp3 => (ROk te, inp3, k) end).
  { intros te inp2 F2. destruct (eat_regexp (cf_eng c) (esc_close e) inp2 0) as [| |m' c' n' inp3] eqn:Q2; simpl; auto.
    - eapply forward_trans; eauto.
    - eapply forward_trans; [exact F1|]. eapply forward_trans; [exact F2|].
      eapply eat_regexp_forward; eauto using forward_range. }
  destruct (esc_fn e sc inp1) as [inp2 [te|err]]; simpl in *.
  - apply CL; auto.
  - destruct err; simpl; try (eapply forward_trans; eauto; fail). apply CL. eauto.
Qed.

Lemma seq_loop_fwd : forall c run iscut rule, run_fwd run -> forall ps ids sc inp k acc, in_range inp ->
  fwd inp (seq_loop c run iscut rule ids ps sc inp k acc).
Proof.
  intros c run iscut rule R. induction ps as [|p ps IH]; intros ids sc inp k acc I; simpl.
  - apply forward_refl; auto.
  - pose proof (R p sc inp k I) as F. destruct (run p sc inp k) as [[[v|e| |] s'] k']; simpl in F; auto.
    + set (x := if iscut p then _ else _). destruct x as [sc1 k1].
      eapply fwd_trans; [exact F|]. apply IH. eauto using forward_range.
    + destruct (is_fatal e); simpl; auto. apply forward_refl; auto.
Qed.

Lemma quant_loop_fwd : forall run rule mn mx p sc pc mc, run_fwd run -> forall fuel inp k acc, in_range inp ->
  fwd inp (quant_loop run fuel rule mn mx p sc pc mc inp k acc).
Proof.
  intros run rule mn mx p sc pc mc R. induction fuel as [|f IH]; intros inp k acc I; simpl.
  - destruct (_ || _); simpl; auto. destruct (Nat.leb mn (length acc)); simpl; apply forward_refl; auto.
  - destruct (_ || _).
    + pose proof (R p sc inp k I) as F. destruct (run p sc inp k) as [[[v|e| |] s'] k']; simpl in F; simpl; auto.
      * eapply fwd_trans; [exact F|]. apply IH. eauto using forward_range.
      * destruct (not_my_fatal e mc); simpl; [apply forward_refl; auto|].
        destruct (Nat.leb mn (length acc)); simpl; apply forward_refl; auto.
    + destruct (Nat.leb mn (length acc)); simpl; apply forward_refl; auto.
Qed.

Lemma oneof_loop_fwd : forall run rule sc pc mc, run_fwd run -> forall ps i inp fur k, in_range inp -> forward inp fur ->
  fwd inp (oneof_loop run rule i ps sc pc mc inp fur k).
Proof.
  intros run rule sc pc mc R. induction ps as [|p ps IH]; intros i inp fur k I F; simpl; auto.
  pose proof (R p sc inp k I) as F1. destruct (run p sc inp k) as [[[v|e| |] s'] k']; simpl in F1; simpl; auto.
  destruct (not_my_fatal e mc); simpl; [apply forward_refl; auto|].
  apply IH; auto. destruct (offset fur <? offset s'); auto.
Qed.

Theorem parse_forward : forall c, tame c -> forall f e, run_fwd (parse c f e).
Proof.
  intros c T. induction f as [|f IH]; intros e p sc inp k I; simpl; auto.
  destruct p; simpl; auto; try (apply with_escape_fwd; auto; simpl).
  - destruct (resolve_link e t) as [[q e']|]; simpl; auto. apply IH; auto.
  - destruct (eat_token (cf_eng c) re inp) as [| |l r'] eqn:Q; simpl; auto; [apply forward_refl; auto|].
    eapply eat_token_forward; eauto. apply T.
  - destruct (eat_token (cf_eng c) re inp) as [| |l r'] eqn:Q; simpl; auto; [apply forward_refl; auto|].
    eapply eat_token_forward; eauto. apply T.
  - apply seq_loop_fwd; auto.
  - pose proof (IH e p sc inp k I) as F. destruct (parse c f e p sc inp k) as [[[v|x| |] s'] k']; simpl in *; auto.
    destruct (delim_node rule a cs ce v); simpl; auto.
  - destruct (parse c f e p sc inp k) as [[[v|x| |] s'] k']; simpl; auto using forward_refl.
  - destruct (replace_cut c false sc k) as [[[sc' pc] mc] k']. apply quant_loop_fwd; auto.
  - destruct (replace_cut c false sc k) as [[[sc' pc] mc] k']. apply oneof_loop_fwd; auto using forward_refl.
  - assert (G : forall t (check : tree -> bool), fwd inp
      match term_parser (cf_eng c) t None ident with
      | COk q => match parse c f [] q sc inp k with
                 | (ROk v, inp', k') => if check v then (ROk v, inp', k') else (RErr (EParse ident), inp', k')
                 | r => r end
      | _ => (RPanic, inp, k) end).
    { intros t check. destruct (term_parser (cf_eng c) t None ident); simpl; auto.
      pose proof (IH [] a sc inp k I) as F. destruct (parse c f [] a sc inp k) as [[[v|x| |] s'] k']; simpl in *; auto.
      destruct (check v); simpl; auto. }
    destruct (lookup ident (svals sc)).
    + destruct (term_from_ref_val t); simpl; auto; apply (G t0).
    + destruct default; simpl; [apply (G (TS b) (fun _ => true))|apply forward_refl; auto].
  - destruct (lookup s (cf_ext c)) as [fn|] eqn:L; simpl; [|apply forward_refl; auto].
    destruct T as (_ & X & _). destruct (X _ _ L sc inp I) as [W _].
    destruct (fn sc inp) as [s' [t|x]]; simpl in *; auto.
  - apply IH; auto.
  - apply IH; auto.
Qed.

Theorem parse_rule_forward : forall c f ps r s res s', tame c -> in_range s ->
  parse_rule c f ps r s = (res, s') -> res <> RPanic -> res <> RFuel -> forward s s'.
Proof.
  intros c f ps r s res s' T I H N1 N2. unfold parse_rule in H.
  destruct (lookup r (p_rules ps)) as [p|]; [|congruence].
  pose proof (parse_forward c T f [p_rules ps] p empty_scope s 0%nat I) as F.
  destruct (parse c f [p_rules ps] p empty_scope s 0) as [[[v|e| |] s1] k1]; simpl in F; try congruence.
  destruct (sstring s1) as [[|b t]|]; inversion H; subst; auto; congruence.
Qed.

(** * Leaves *)

Scheme derives_mut := Minimality for derives Sort Prop
  with derives_all_mut := Minimality for derives_all Sort Prop
  with derives_many_mut := Minimality for derives_many Sort Prop.
Combined Scheme derives_mutind from derives_mut, derives_all_mut, derives_many_mut.

Lemma patterns_list : forall P w ts,
  (fix go l := match l with [] => True | u :: l' => patterns P w u /\ go l' end) ts <-> Forall (patterns P w) ts.
Proof.
  intros P w ts. induction ts as [|t ts IH]; split; intros H; auto.
  - destruct H. constructor; auto. apply IH; auto.
  - inversion H; subst. split; auto. apply IH; auto.
Qed.
Lemma patterns_gram : forall P w (g : grammar),
  (fix go (l : list (string * term)) := match l with [] => True | kv :: l' => patterns P w (snd kv) /\ go l' end) g <->
  Forall (fun kv => patterns P w (snd kv)) g.
Proof.
  intros P w g. induction g as [|t ts IH]; split; intros H; auto.
  - destruct H. constructor; auto. apply IH; auto.
  - inversion H; subst. split; auto. apply IH; auto.
Qed.

(** All grammars in scope keep to [P]. *)
Inductive scope_patterns (P : bytes -> Prop) : grammars -> Prop :=
| sp_nil : scope_patterns P []
| sp_cons : forall g gs, scope_patterns P gs ->
    (forall r t, lookup r g = Some t -> patterns P (wrap_of (g :: gs)) t) -> scope_patterns P (g :: gs).

Definition look_free (gs : grammars) : Prop := Forall (fun g => no_look_grammar g = true) gs.

Lemma rule_body_patterns : forall P gs r gs' t, rule_body gs r gs' t -> scope_patterns P gs ->
  patterns P (wrap_of gs') t /\ scope_patterns P gs'.
Proof.
  intros P gs r gs' t RB S. induction RB as [g gs r t t' L A|g gs r gs' t L RB IH]; inversion S; subst; auto.
  split; [|constructor; auto].
  eapply (alias_body_in (fun z => patterns P (wrap_of (g :: gs)) z)); eauto.
Qed.

Lemma rule_body_look : forall gs r gs' t, rule_body gs r gs' t -> look_free gs -> no_look t = true /\ look_free gs'.
Proof.
  intros gs r gs' t RB S. induction RB as [g gs r t t' L A|g gs r gs' t L RB IH]; inversion S; subst; auto.
  split; [|constructor; auto].
  match goal with H : no_look_grammar g = true |- _ => rename H into G end.
  unfold no_look_grammar in G. rewrite forallb_forall in G.
  eapply (alias_body_in (fun z => no_look z = true)); eauto.
  - apply lookup_In in L. apply (G _ L).
  - intros r' u L'. apply lookup_In in L'. apply (G _ L').
Qed.

Lemma patterns_delim : forall P w t sep cs ce, patterns P w t -> patterns P w sep -> patterns P w (delim_seq t sep cs ce).
Proof. intros P w t sep [] [] H1 H2; simpl; auto 10. Qed.
Lemma no_look_delim : forall t sep cs ce, no_look t && no_look sep = true -> no_look (delim_seq t sep cs ce) = true.
Proof. intros t sep [] [] H; apply andb_true_iff in H as [H1 H2]; simpl; rewrite H1, H2; auto. Qed.

Lemma ref_term_look : forall v t, ref_term v t -> no_look t = true.
Proof.
  induction v as [tag x cs IH|s0|] using tree_ind'; intros t R; inversion R; subst; auto.
  simpl. match goal with H : Forall2 _ _ _ |- _ => revert H end. clear R.
  revert ts. induction IH; intros ts F; inversion F; subst; simpl; auto.
  apply andb_true_iff. split; eauto.
Qed.
Lemma ref_term_patterns : forall (P : bytes -> Prop) v t, (forall x, P (group (quote_meta x))) -> ref_term v t -> patterns P None t.
Proof.
  intros P v t HP. revert t.
  induction v as [tag x cs IH|s0|] using tree_ind'; intros t R; inversion R; subst.
  - simpl. apply patterns_list. match goal with H : Forall2 _ _ _ |- _ => revert H end. clear R.
    revert ts. induction IH; intros ts F; inversion F; subst; auto.
  - simpl. intros pat ->. auto.
Qed.

(** The leaves of a delimited list are those of the sequence it was read with. *)
Lemma derives_all_nil : forall E gs vs s cs s', derives_all E gs vs [] s cs s' -> cs = [] /\ s' = s.
Proof. intros. inversion H; auto. Qed.
Lemma derives_all_cons : forall E gs vs t ts s cs s', derives_all E gs vs (t :: ts) s cs s' ->
  exists v s1 cs', cs = v :: cs' /\ derives E gs vs "" t s v s1 /\ derives_all E gs (bind vs (label t) v) ts s1 cs' s'.
Proof. intros. inversion H; subst. eauto 10. Qed.
Lemma derives_seq_inv : forall E gs vs r ts s v s', derives E gs vs r (TSeq ts) s v s' ->
  exists cs, v = Node (tag_or r seqTag) XNone cs /\ derives_all E gs vs ts s cs s'.
Proof. intros. inversion H; subst. eauto. Qed.
Lemma derives_quant_inv : forall E gs vs r t mn mx s v s', derives E gs vs r (TQuant t mn mx) s v s' ->
  exists cs, v = Node (tag_or r quantTag) XNone cs /\ derives_many E gs vs t s cs s' /\
    (mn <= length cs)%nat /\ (mx = 0 \/ length cs <= mx)%nat.
Proof. intros. inversion H; subst. eauto 10. Qed.

Definition two (v : tree) : Prop := exists tag x a b, v = Node tag x [a; b].
Lemma many_pairs : forall E gs vs sep t s cs s', derives_many E gs vs (TSeq [sep; t]) s cs s' -> Forall two cs.
Proof.
  intros E gs vs sep t s cs s' H. remember (TSeq [sep; t]) as u. induction H; subst; auto.
  constructor; auto. apply derives_seq_inv in H as (l & -> & A).
  apply derives_all_cons in A as (a & s2 & l1 & -> & _ & A).
  apply derives_all_cons in A as (b & s3 & l2 & -> & _ & A).
  apply derives_all_nil in A as [-> ->]. unfold two. eauto 10.
Qed.

Lemma pairs_flat_leaves : forall ps l, pairs_flat ps l -> Forall two ps -> flat_map leaves l = flat_map leaves ps.
Proof.
  induction 1 as [|p s x ps l P PF IH]; intros F; auto. inversion F as [|? ? T F']; subst.
  destruct T as (tag & ex & a & b & ->). destruct P as (t2 & e2 & rest & Q). inversion Q; subst.
  simpl. rewrite IH by auto. rewrite app_nil_r, app_assoc. auto.
Qed.

Lemma opt_sep_leaves : forall v o lead, opt_sep (Some v) o lead -> (forall tag x cs, v = Node tag x cs -> (length cs <= 1)%nat) ->
  flat_map leaves o = leaves v.
Proof.
  intros [tag x [|s cs]|s|] o lead H L; simpl in H; subst; try contradiction; auto.
  destruct cs as [|y cs]; [destruct lead; simpl; rewrite !app_nil_r; auto|].
  specialize (L _ _ _ eq_refl). simpl in L. lia.
Qed.

Lemma opt_short : forall E gs vs r sep s v s', derives E gs vs r (Opt sep) s v s' ->
  forall tag x cs, v = Node tag x cs -> (length cs <= 1)%nat.
Proof.
  intros E gs vs r sep s v s' D tag x cs ->. apply derives_quant_inv in D as (l & Q & _ & _ & B).
  inversion Q; subst. lia.
Qed.

Lemma delim_seq_leaves : forall E gs vs r t sep cs ce s v s' items,
  derives E gs vs r (delim_seq t sep cs ce) s v s' -> delim_items cs ce v items ->
  flat_map leaves items = leaves v.
Proof.
  intros E gs vs r t sep cs ce s v s' items D DI.
  unfold delim_seq in D. apply derives_seq_inv in D as (l & -> & D).
  destruct DI as (tag & ex & cs1 & core & cs2 & lead & trail & first & more & pairs & Q & L1 & OL & OT & NT & C & PF & ->).
  inversion Q; subst tag ex l. clear Q.
  assert (CORE : forall vs s v s', derives E gs vs ""%string (TSeq [t; Any (TSeq [sep; t])]) s v s' ->
            forall t1 x1 t2 x2 r', v = Node t1 x1 (first :: Node t2 x2 more :: r') ->
            leaves v = leaves first ++ flat_map leaves pairs).
  { intros vs0 s0 v0 s0' D0 t1 x1 t2 x2 r' Q. apply derives_seq_inv in D0 as (l & -> & D0).
    apply derives_all_cons in D0 as (a & s2 & l1 & -> & _ & A).
    apply derives_all_cons in A as (b & s3 & l2 & -> & DB & A).
    apply derives_all_nil in A as [-> ->]. inversion Q; subst.
    apply derives_quant_inv in DB as (l & QB & DM & _). inversion QB; subst.
    apply many_pairs in DM. rewrite (pairs_flat_leaves _ _ PF DM). simpl. rewrite app_nil_r. auto. }
  destruct C as (t1 & x1 & t2 & x2 & r' & CQ).
  destruct cs; simpl in D, L1.
  - destruct cs1 as [|v1 [|? ?]]; try discriminate. simpl in OL.
    apply derives_all_cons in D as (v1' & s1 & l1 & Q & D1 & D). simpl in Q. inversion Q; subst v1' l1. clear Q.
    apply derives_all_cons in D as (v2' & s2 & l2 & Q & D2 & D). inversion Q; subst v2' l2. clear Q.
    rewrite flat_map_app. rewrite (opt_sep_leaves v1 lead true OL) by (eapply opt_short; eauto).
    simpl. rewrite (CORE _ _ _ _ D2 _ _ _ _ _ CQ). rewrite flat_map_app, !app_assoc. f_equal.
    destruct ce.
    + apply derives_all_cons in D as (v3 & s3 & l3 & -> & D3 & D). apply derives_all_nil in D as [-> ->].
      simpl in OT. rewrite (opt_sep_leaves v3 trail false OT) by (eapply opt_short; eauto). simpl. rewrite app_nil_r. auto.
    + apply derives_all_nil in D as [-> ->]. simpl in OT. subst. auto.
  - destruct cs1; try discriminate. simpl in OL. subst lead. simpl in *.
    apply derives_all_cons in D as (v2' & s2 & l2 & Q & D2 & D). inversion Q; subst v2' l2. clear Q.
    rewrite (CORE _ _ _ _ D2 _ _ _ _ _ CQ). rewrite flat_map_app, !app_assoc. f_equal.
    destruct ce.
    + apply derives_all_cons in D as (v3 & s3 & l3 & -> & D3 & D). apply derives_all_nil in D as [-> ->].
      simpl in OT. rewrite (opt_sep_leaves v3 trail false OT) by (eapply opt_short; eauto). simpl. rewrite app_nil_r. auto.
    + apply derives_all_nil in D as [-> ->]. simpl in OT. subst. auto.
Qed.

Lemma nest_left_leaves : forall tag l v, nest_left tag l v -> leaves v = flat_map leaves l.
Proof.
  induction 1 as [v|l v s x N IH]; simpl; [rewrite app_nil_r; auto|].
  rewrite flat_map_app, IH. auto.
Qed.
Lemma nest_right_leaves : forall tag l v, nest_right tag l v -> leaves v = flat_map leaves l.
Proof.
  induction 1 as [v|l v s x N IH]; simpl; [rewrite app_nil_r; auto|].
  rewrite IH, app_nil_r. auto.
Qed.
Lemma delim_result_leaves : forall r a items v, delim_result r a items v -> leaves v = flat_map leaves items.
Proof.
  intros r [] items v H; simpl in H.
  - destruct H as [[_ ->]|[_ H]]; auto. eapply nest_right_leaves; eauto.
  - subst. auto.
  - destruct H as [[_ ->]|[_ H]]; auto. eapply nest_left_leaves; eauto.
Qed.

(** One induction for both coverage statements: [R s s' ls] relates the scanner before, the
    scanner after and the leaves. *)
Section Cover.
  Variable E : engine.
  Variable P : bytes -> Prop.
  Variable R : scanner -> scanner -> list scanner -> Prop.
  Hypothesis R_nil : forall s, in_range s -> R s s [].
  Hypothesis R_app : forall s s1 s' l1 l2, R s s1 l1 -> R s1 s' l2 -> R s s' (l1 ++ l2).
  Hypothesis R_range : forall s s' l, R s s' l -> in_range s'.
  Hypothesis R_tok : forall pat s v s', in_range s -> P pat -> token E pat s (Succ v s') -> R s s' (leaves v).

  Lemma derives_cover :
    (forall gs vs r t s v s', derives E gs vs r t s v s' -> scope_patterns P gs -> look_free gs ->
       patterns P (wrap_of gs) t -> no_look t = true -> in_range s -> R s s' (leaves v)) /\
    (forall gs vs ts s cs s', derives_all E gs vs ts s cs s' -> scope_patterns P gs -> look_free gs ->
       Forall (patterns P (wrap_of gs)) ts -> forallb no_look ts = true -> in_range s ->
       R s s' (flat_map leaves cs)) /\
    (forall gs vs t s cs s', derives_many E gs vs t s cs s' -> scope_patterns P gs -> look_free gs ->
       patterns P (wrap_of gs) t -> no_look t = true -> in_range s -> R s s' (flat_map leaves cs)).
  Proof.
    apply derives_mutind.
    - intros gs vs r x s pat v s' TP T SP LF HP NL I. eapply R_tok; eauto.
    - intros gs vs r x s pat v s' TP T SP LF HP NL I. eapply R_tok; eauto.
    - intros gs vs r n t s v s' D IH SP LF HP NL I. auto.
    - intros gs vs r t s v s' D IH SP LF HP NL I. auto.
    - intros gs vs r t g s v s' D IH SP LF HP NL I. simpl in HP, NL. destruct HP as [H1 H2].
      apply andb_true_iff in NL as [N1 N2].
      assert (W : wrap_in g (wrap_of gs) = wrap_of (g :: gs)) by reflexivity. rewrite W in *.
      apply IH; auto.
      + constructor; auto. intros r0 u L. apply patterns_gram in H2. rewrite Forall_forall in H2.
        apply lookup_In in L. apply (H2 _ L).
      + constructor; auto.
    - intros gs vs r x gs' t s v s' RB D IH SP LF _ _ I.
      destruct (rule_body_patterns _ _ _ _ _ RB SP). destruct (rule_body_look _ _ _ _ RB LF). auto.
    - intros gs vs r ts s cs s' D IH SP LF HP NL I. simpl. apply IH; auto. apply patterns_list; auto.
    - intros gs vs r ts i t s v s' N D IH SP LF HP NL I. simpl in *. rewrite app_nil_r.
      apply nth_error_In in N. apply patterns_list in HP. rewrite Forall_forall in HP. rewrite forallb_forall in NL. auto.
    - intros gs vs r t mn mx s cs s' D IH _ _ SP LF HP NL I. simpl. auto.
    - discriminate.
    - intros gs vs r t sep a cs ce s v s' items v' D IH DI DR SP LF HP NL I. simpl in HP, NL. destruct HP.
      rewrite (delim_result_leaves _ _ _ _ DR), (delim_seq_leaves _ _ _ _ _ _ _ _ _ _ _ _ D DI).
      apply IH; auto; [apply patterns_delim|apply no_look_delim]; auto.
    - intros gs vs r i d s v t v' s' L RT D IH LT SP LF HP NL I. simpl in HP.
      apply IH; auto; [constructor|constructor|eapply ref_term_patterns; eauto|eapply ref_term_look; eauto].
    - intros gs vs r i d s v s' L D IH SP LF HP NL I. simpl in HP.
      apply IH; auto; [constructor|constructor|]. simpl. intros pat ->. auto.
    - intros. simpl. auto.
    - intros gs vs t ts s v s1 cs s' D IHD A IHA SP LF HP NL I. simpl in *. inversion HP; subst.
      apply andb_true_iff in NL as [N1 N2].
      assert (R s s1 (leaves v)) by (apply IHD; auto). eapply R_app; eauto.
    - intros. simpl. auto.
    - intros gs vs t s v s1 cs s' D IHD A IHA SP LF HP NL I. simpl.
      assert (R s s1 (leaves v)) by (apply IHD; auto). eapply R_app; eauto.
  Qed.
End Cover.

(** ** Ordered *)

Definition covers_ordered (s s' : scanner) (ls : list scanner) : Prop :=
  exists o i n j, window s o i n /\ (j <= n)%nat /\ window s' o (i + j) (n - j) /\ ordered o i (i + j) ls.

Lemma ordered_weaken : forall o lo hi ls, ordered o lo hi ls -> forall lo' hi', (lo' <= lo)%nat -> (hi <= hi')%nat ->
  ordered o lo' hi' ls.
Proof. induction 1; intros; [constructor; lia|econstructor; eauto; lia]. Qed.
Lemma ordered_le : forall o lo hi ls, ordered o lo hi ls -> (lo <= hi)%nat.
Proof. induction 1; lia. Qed.
Lemma ordered_app : forall o lo mid ls, ordered o lo mid ls -> forall hi ls2, ordered o mid hi ls2 -> ordered o lo hi (ls ++ ls2).
Proof.
  induction 1; intros hi' ls2 H2; simpl.
  - eapply ordered_weaken; eauto.
  - econstructor; eauto.
Qed.

Lemma ordered_leaves : forall E, engine_ok E -> forall pat s v s', in_range s -> participates E pat ->
  token E pat s (Succ v s') -> covers_ordered s s' (leaves v).
Proof.
  intros E OK pat s v s' (o & i & n & W) HP T.
  assert (G : forall t b gs g, sslice s = Some t -> re_find E (anchor ++ pat) t = Some ((0, b) :: gs) -> In g gs ->
            covers_ordered s (skip s b) [slice s (fst g) (snd g)]).
  { intros t b gs g S F I. pose proof (HP _ _ F) as NP.
    destruct (ok_shape E OK _ _ _ F) as (a' & b' & gs' & Q & B1 & B2 & B3 & _ & LO). inversion Q; subst.
    unfold blen in B3. rewrite (window_length _ _ _ _ _ W S) in B3.
    rewrite Forall_forall in LO. destruct (LO _ I) as [->|(G1 & G2 & G3)].
    { exfalso. apply NP. right. auto. }
    exists o, i, n, (Z.to_nat b'). split; auto. split; [lia|]. split; [apply skip_window; auto|].
    econstructor; [apply (slice_window s o i n); auto; lia|lia|]. constructor. lia. }
  inversion T; subst; simpl; (eapply G; [eassumption|eassumption|simpl; auto]).
Qed.

Theorem derives_ordered : forall E g r s v s', engine_ok E -> rule_derives E g r s v s' ->
  patterns_grammar (participates E) g -> no_look_grammar g = true -> in_range s ->
  covers_ordered s s' (leaves v).
Proof.
  intros E g r s v s' OK D PG NL I.
  eapply (proj1 (derives_cover E (participates E) covers_ordered _ _ _ _)); eauto.
  - constructor; [constructor|]. intros. apply PG in H. simpl. destruct (lookup WrapRE g); auto.
  - constructor; auto.
  - simpl. auto.
  Unshelve.
  + intros s0 (o & i & n & W). exists o, i, n, 0%nat. split; auto. split; [lia|].
    rewrite Nat.add_0_r, Nat.sub_0_r. split; auto. constructor. lia.
  + intros s0 s1 s2 l1 l2 (o & i & n & j & W1 & L1 & W2 & O1) (o' & i' & n' & j' & W3 & L2 & W4 & O2).
    destruct (window_fun _ _ _ _ _ _ _ W2 W3) as (-> & <- & <-).
    exists o', i, n, (j + j')%nat. split; auto. split; [lia|].
    replace (i + (j + j'))%nat with (i + j + j')%nat by lia.
    replace (n - (j + j'))%nat with (n - j - j')%nat by lia. split; auto. eapply ordered_app; eauto.
  + intros s0 s1 l (o & i & n & j & W1 & L1 & W2 & O1). do 3 eexists; eauto.
  + intros. eapply ordered_leaves; eauto.
Qed.

(** ** Lossless *)

Definition covers_exactly (s s' : scanner) (ls : list scanner) : Prop :=
  in_range s' /\ exists txts rest, Forall2 shows ls txts /\ shows s (concat txts ++ rest) /\ shows s' rest.

Lemma token_exact : forall E, engine_ok E -> forall pat s v s', in_range s -> captures_all E pat ->
  token E pat s (Succ v s') -> covers_exactly s s' (leaves v).
Proof.
  intros E OK pat s v s' (o & i & n & W) HP T.
  inversion T as [|t b g S F|t b h g S F]; subst.
  - pose proof (HP _ _ _ F) as Q. inversion Q; subst g. simpl.
    destruct (ok_shape E OK _ _ _ F) as (a' & b' & gs' & Q' & B1 & B2 & B3 & _). inversion Q'; subst.
    unfold blen in B3. rewrite (window_length _ _ _ _ _ W S) in B3.
    assert (W' := skip_window s o i n b' W ltac:(lia) ltac:(lia)).
    split; [do 3 eexists; eauto|].
    pose proof (eat_splits s o i n (Z.to_nat b') W ltac:(lia)) as X. unfold eat in X.
    destruct X as (X1 & X2 & te & tr & X3 & X4 & X5 & X6).
    rewrite Z2Nat.id in * by lia.
    exists [te], tr. repeat split; auto.
    + constructor; [|constructor]. unfold slice. rewrite Z.add_0_r, Z.sub_0_r. exact X3.
    + simpl. rewrite app_nil_r. auto.
  - pose proof (HP _ _ _ F) as Q. discriminate.
Qed.

Theorem derives_exact : forall E g r s v s', engine_ok E -> rule_derives E g r s v s' ->
  patterns_grammar (captures_all E) g -> no_look_grammar g = true -> in_range s ->
  exists txts rest, Forall2 shows (leaves v) txts /\ shows s (concat txts ++ rest) /\ shows s' rest.
Proof.
  intros E g r s v s' OK D PG NL I.
  enough (covers_exactly s s' (leaves v)) as [_ X] by exact X.
  eapply (proj1 (derives_cover E (captures_all E) covers_exactly _ _ _ _)); eauto.
  - constructor; [constructor|]. intros. apply PG in H. simpl. destruct (lookup WrapRE g); auto.
  - constructor; auto.
  - simpl. auto.
  Unshelve.
  + intros s0 R0. split; auto. destruct R0 as (o & i & n & W).
    exists [], (firstn n (skipn i (origin o))). repeat split; auto.
    * simpl. apply (window_string _ _ _ _ W).
    * apply (window_string _ _ _ _ W).
  + intros s0 s1 s2 l1 l2 (R1 & t1 & r1 & F1 & S1 & S1') (R2 & t2 & r2 & F2 & S2 & S2').
    split; auto. exists (t1 ++ t2), r2. repeat split; auto.
    * apply Forall2_app; auto.
    * rewrite concat_app, <- app_assoc. unfold shows in *. congruence.
  + intros s0 s1 l (R1 & _). auto.
  + intros. eapply token_exact; eauto.
Qed.

Lemma no_groups_list : forall E ts,
  (fix go l := match l with [] => True | u :: l' => no_groups E u /\ go l' end) ts <-> Forall (no_groups E) ts.
Proof.
  intros E ts. induction ts as [|t ts IH]; split; intros H; auto.
  - destruct H. constructor; auto. apply IH; auto.
  - inversion H; subst. split; auto. apply IH; auto.
Qed.

Lemma captures_lit : forall E x, engine_ok E -> re_lit_ok E x = true -> captures_all E (group (quote_meta x)).
Proof.
  intros E x OK L t b gs F. rewrite (ok_lit E OK x t L) in F. destruct (has_prefix x t); inversion F; auto.
Qed.

Lemma captures_re : forall E x, engine_ok E -> re_valid E x = true -> re_valid E (anchor ++ group x) = true ->
  re_groups E x = 0%nat -> captures_all E (group x).
Proof.
  intros E x OK V1 V2 G t b gs F.
  destruct (ok_shape E OK _ _ _ F) as (a & b' & gs' & Q & _ & _ & _ & LN & _). inversion Q; subst.
  rewrite (ok_group_count E OK _ V1 V2), G in LN. destruct gs' as [|g [|? ?]]; try discriminate.
  destruct (ok_group E OK _ _ _ _ _ _ V1 V2 F) as [_ ->]. auto.
Qed.

Lemma participates_lit : forall E x, engine_ok E -> re_lit_ok E x = true -> participates E (group (quote_meta x)).
Proof.
  intros E x OK L t locs F I. rewrite (ok_lit E OK x t L) in F.
  destruct (has_prefix x t); inversion F; subst. simpl in I. destruct I as [I|[I|[]]]; inversion I.
Qed.

Lemma participates_re : forall E x, engine_ok E -> re_valid E x = true -> re_valid E (anchor ++ group x) = true ->
  re_groups E x = 0%nat -> participates E (group x).
Proof.
  intros E x OK V1 V2 G t locs F I.
  destruct (ok_shape E OK _ _ _ F) as (a & b' & gs' & -> & B & _ & _ & LN & _).
  rewrite (ok_group_count E OK _ V1 V2), G in LN. destruct gs' as [|g [|? ?]]; try discriminate.
  destruct (ok_group E OK _ _ _ _ _ _ V1 V2 F) as [-> ->]. destruct I as [I|[I|[]]]; inversion I.
Qed.

Lemma no_groups_patterns : forall (P : bytes -> Prop) E t,
  (forall x, re_lit_ok E x = true -> P (group (quote_meta x))) ->
  (forall x, re_valid E x = true -> re_valid E (anchor ++ group x) = true -> re_groups E x = 0%nat -> P (group x)) ->
  no_groups E t -> patterns P None t.
Proof.
  intros P E t PL PR. induction t using term_ind'; simpl; intros N; auto;
    try (apply patterns_list; apply no_groups_list in N; rewrite Forall_forall in *; auto; fail).
  - intros pat ->. auto.
  - intros pat ->. destruct N as (N1 & N2 & N3). auto.
  - destruct N; auto.
  - destruct N as (N1 & N2 & N3). unfold wrap_in. rewrite N1. split; auto. clear IHt N2 N1.
    induction g as [|[k u] g IH]; auto. inversion H; subst. destruct N3. split; auto. apply IH; auto.
Qed.

Lemma no_groups_grammar_patterns : forall E g, engine_ok E -> no_groups_grammar E g -> patterns_grammar (captures_all E) g.
Proof.
  intros E g OK [N1 N2] r t L. rewrite N1. apply no_groups_patterns with E; eauto using captures_lit, captures_re.
Qed.

Lemma no_groups_participates : forall E g, engine_ok E -> no_groups_grammar E g -> patterns_grammar (participates E) g.
Proof.
  intros E g OK [N1 N2] r t L. rewrite N1. apply no_groups_patterns with E; eauto using participates_lit, participates_re.
Qed.

Lemma parse_moves_forward : forall c, tame c -> forall f e p sc s k, in_range s ->
  forall res s' k', parse c f e p sc s k = (res, s', k') -> res <> RPanic -> res <> RFuel -> forward s s'.
Proof.
  intros c T f e p sc s k I res s' k' Q N1 N2. pose proof (parse_forward c T f e p sc s k I) as F. rewrite Q in F.
  destruct res; simpl in F; auto; congruence.
Qed.
