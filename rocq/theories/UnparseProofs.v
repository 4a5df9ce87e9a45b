From Verif Require Import Base Scanner ScannerSpec Syntax Engine Resolve Compile Parse PegSpec FlowSpec ApiSpec DerivSpec CutSpec Ast AstProofs Unparse UnparseSpec FlowProofs FordProofs ApiProofs.

Lemma then_write_ok : forall a b x n, then_write a b = COk (x, n) -> exists y m z k, a = COk (y, m) /\ b = COk (z, k) /\ x = y ++ z /\ n = m + k.
Proof.
  intros a b x n H. unfold then_write in H. apply cbind_inv in H as ([y m] & -> & H). apply cbind_inv in H as ([z k] & -> & H).
  injection H as <- <-. exists y, m, z, k. auto.
Qed.
Lemma then_write_intro : forall a b y m z k, a = COk (y, m) -> b = COk (z, k) -> then_write a b = COk (y ++ z, m + k).
Proof. intros a b y m z k -> ->. reflexivity. Qed.

(** More fuel does not change the result. *)
Lemma unparse_mono : forall f g t e o, unparse f g t e = COk o -> forall f', f <= f' -> unparse f' g t e = COk o.
Proof.
  induction f as [|f IH]; intros g t e [x n] H f' LE; [discriminate|]. destruct f' as [|f']; [lia|]. assert (LE' : f <= f') by lia.
  assert (SQ : forall ts cs x n, unparse_seq (unparse f g) ts cs = COk (x, n) -> unparse_seq (unparse f' g) ts cs = COk (x, n)).
  { induction ts as [|t0 ts IHt]; intros cs x0 n0 K; [exact K|]. cbn [unparse_seq] in *. destruct cs as [|c cs]; [discriminate|].
    apply then_write_ok in K as (y & m & z & k & A & B & -> & ->). apply then_write_intro; [eapply IH; eauto|auto]. }
  assert (EA : forall at_ cs i x n, unparse_each (unparse f g) at_ i cs = COk (x, n) -> unparse_each (unparse f' g) at_ i cs = COk (x, n)).
  { intros at_. induction cs as [|c cs IHc]; intros i x0 n0 K; [exact K|]. cbn [unparse_each] in *.
    apply then_write_ok in K as (y & m & z & k & A & B & -> & ->). apply then_write_intro; [eapply IH; eauto|auto]. }
  cbn [unparse] in *. destruct t; auto; try discriminate.
  - destruct (lookup r g); [|discriminate]. eapply IH; eauto.
  - destruct e; try discriminate. auto.
  - destruct e as [tag ex cs| |]; try discriminate. destruct ex; try discriminate. destruct cs as [|ch cs]; [discriminate|].
    destruct (nth_error ts c); [|discriminate]. eapply IH; eauto.
  - destruct e as [tag ex cs| |]; try discriminate. destruct ex; try discriminate. auto.
  - destruct e; try discriminate. auto.
  - destruct e; try discriminate. auto.
Qed.

(** [t] writes the leaves of [v]. *)
Definition writes (g : grammar) (t : term) (v : tree) : Prop :=
  exists f, forall txts, Forall2 shows (leaves v) txts -> unparse f g t v = COk (concat txts, length (concat txts)).

Lemma writes_at : forall g t v txts, writes g t v -> Forall2 shows (leaves v) txts ->
  exists f, forall f', f <= f' -> unparse f' g t v = COk (concat txts, length (concat txts)).
Proof. intros g t v txts (f & H) F. exists f. intros f' LE. eapply unparse_mono; eauto. Qed.

(** The same with the fuel fixed later. *)
Definition writes_from (g : grammar) (f : nat) (t : term) (v : tree) : Prop :=
  forall f', f <= f' -> forall txts, Forall2 shows (leaves v) txts -> unparse f' g t v = COk (concat txts, length (concat txts)).
Lemma writes_iff : forall g t v, writes g t v <-> exists f, writes_from g f t v.
Proof.
  intros g t v. split.
  - intros (f & H). exists f. intros f' LE txts F. eapply unparse_mono; eauto.
  - intros (f & H). exists f. intros txts F. apply (H f); auto.
Qed.
Lemma writes_le : forall g f f' t v, writes_from g f t v -> f <= f' -> writes_from g f' t v.
Proof. intros g f f' t v H LE f2 LE2. apply H. lia. Qed.

Lemma seq_writes : forall g ts cs, Forall2 (writes g) ts cs -> exists f, forall f', f <= f' -> forall txts, Forall2 shows (flat_map leaves cs) txts ->
  unparse_seq (unparse f' g) ts cs = COk (concat txts, length (concat txts)).
Proof.
  intros g ts cs F. induction F as [|t c ts cs W F (f & IH)].
  - exists 0. intros f' _ txts T. inversion T. reflexivity.
  - apply writes_iff in W as (f0 & W). exists (Nat.max f0 f). intros f' LE txts T. cbn [flat_map] in T.
    apply Forall2_app_inv_l in T as (t1 & t2 & T1 & T2 & ->). cbn [unparse_seq].
    rewrite concat_app, app_length. apply then_write_intro; [apply W; [lia|auto]|apply IH; [lia|auto]].
Qed.
Lemma each_writes : forall g at_ cs i, (forall j c, nth_error cs j = Some c -> writes g (at_ (i + j)) c) ->
  exists f, forall f', f <= f' -> forall txts, Forall2 shows (flat_map leaves cs) txts ->
  unparse_each (unparse f' g) at_ i cs = COk (concat txts, length (concat txts)).
Proof.
  intros g at_. induction cs as [|c cs IH]; intros i H.
  - exists 0. intros f' _ txts T. inversion T. reflexivity.
  - assert (W := H 0 c eq_refl). rewrite Nat.add_0_r in W. apply writes_iff in W as (f0 & W).
    destruct (IH (S i)) as (f & IH'); [intros j d J; specialize (H (S j) d J); now rewrite Nat.add_succ_r in H|].
    exists (Nat.max f0 f). intros f' LE txts T. cbn [flat_map] in T.
    apply Forall2_app_inv_l in T as (t1 & t2 & T1 & T2 & ->). cbn [unparse_each].
    rewrite concat_app, app_length. apply then_write_intro; [apply W; [lia|auto]|apply IH'; [lia|auto]].
Qed.

Lemma unparse_seq_eq : forall f g ts tag ex cs, unparse (S f) g (TSeq ts) (Node tag ex cs) = unparse_seq (unparse f g) ts cs.
Proof. reflexivity. Qed.
Lemma unparse_quant_eq : forall f g t mn mx tag ex cs, unparse (S f) g (TQuant t mn mx) (Node tag ex cs) = unparse_each (unparse f g) (fun _ => t) 0 cs.
Proof. reflexivity. Qed.
Lemma unparse_delim_eq : forall f g t sep a cs ce tag b l, unparse (S f) g (TDelim t sep a cs ce) (Node tag (XAssoc b) l) =
  unparse_each (unparse f g) (lr_term t sep (TDelim t sep a cs ce) b) 0 l.
Proof. reflexivity. Qed.
(** What writes the sequence of a list writes its items. *)
Lemma pairs_write : forall g t sep f more pairs i x n, pairs_flat more pairs -> unparse_each (unparse (S f) g) (fun _ => TSeq [sep; t]) i more = COk (x, n) ->
  forall self k, Nat.odd k = true -> unparse_each (unparse f g) (lr_term t sep self NonAssociative) k pairs = COk (x, n).
Proof.
  intros g t sep f more pairs i x n PF. revert i x n. induction PF as [|p s y ps l PO PF IH]; intros i x n H self k O; [exact H|].
  cbn [unparse_each] in H. apply then_write_ok in H as (a & na & b & nb & A & B & -> & ->). destruct PO as (tag & ex & rest & ->).
  rewrite unparse_seq_eq in A. cbn [unparse_seq] in A. apply then_write_ok in A as (a1 & n1 & a2 & n2 & A1 & A2 & -> & ->).
  apply then_write_ok in A2 as (a3 & n3 & a4 & n4 & A3 & A4 & -> & ->). injection A4 as <- <-. rewrite app_nil_r, Nat.add_0_r.
  cbn [unparse_each]. rewrite <- app_assoc, <- Nat.add_assoc. unfold lr_term at 1. rewrite O. apply then_write_intro; auto.
  unfold lr_term at 1. rewrite Nat.odd_succ, <- Nat.negb_odd, O. cbn [negb]. apply then_write_intro; auto.
  eapply IH; eauto.
Qed.
Lemma delim_writes : forall g t sep f v items tag o, delim_items false false v items -> unparse (S (S (S (S f)))) g (delim_seq t sep false false) v = COk o ->
  unparse (S (S (S (S f)))) g (TDelim t sep NonAssociative false false) (Node tag (XAssoc NonAssociative) items) = COk o.
Proof.
  intros g t sep f v items tag [x n] DI H.
  destruct DI as (tg & ex & cs1 & core & cs2 & lead & trail & first & more & pairs & -> & L & OL & OT & _ & (t1 & x1 & t2 & x2 & r & ->) & PF & ->).
  destruct cs1; [|discriminate]. cbn [opt_sep hd_error app] in *. subst lead trail. unfold delim_seq in H. cbn [app] in H. rewrite unparse_seq_eq in H. cbn [unparse_seq] in H.
  apply then_write_ok in H as (a & na & b & nb & A & B & -> & ->). injection B as <- <-. rewrite unparse_seq_eq in A. cbn [unparse_seq] in A.
  apply then_write_ok in A as (a1 & n1 & a2 & n2 & A1 & A2 & -> & ->).
  apply then_write_ok in A2 as (a3 & n3 & a4 & n4 & A3 & A4 & -> & ->). injection A4 as <- <-. rewrite !app_nil_r, !Nat.add_0_r.
  cbn [app]. rewrite unparse_delim_eq. cbn [unparse_each].
  apply then_write_intro; [eapply unparse_mono; [exact A1|lia]|]. unfold Any in A3. rewrite unparse_quant_eq in A3.
  assert (M : forall at_ cs i o, unparse_each (unparse f g) at_ i cs = COk o -> unparse_each (unparse (S (S (S f))) g) at_ i cs = COk o).
  { intros at_. induction cs as [|c cs IHc]; intros i [x0 n0] K; [exact K|]. cbn [unparse_each] in *.
    apply then_write_ok in K as (y & m & z & k & Y & Z & -> & ->). apply then_write_intro; [eapply unparse_mono; [exact Y|lia]|auto]. }
  apply M. eapply pairs_write; eauto.
Qed.

Section Rules.
  Variables (E : engine) (g : grammar).
  Hypothesis wg : writable_grammar g = true.

  Lemma rule_writable : forall r t, lookup r g = Some t -> writable t = true.
  Proof. intros r t L. unfold writable_grammar in wg. rewrite forallb_forall in wg. exact (wg _ (lookup_In _ _ _ L)). Qed.
  Lemma alias_writes : forall t u v, alias_body g t u -> writes g u v -> writes g t v.
  Proof.
    intros t u v H W. induction H as [t NR|r t t' L A IH]; [auto|]. destruct (IH W) as (f & K). exists (S f). intros txts T.
    cbn [unparse]. rewrite L. auto.
  Qed.
  Lemma alias_writable : forall t u, alias_body g t u -> writable t = true -> writable u = true.
  Proof. intros t u H. induction H as [t NR|r t t' L A IH]; auto. intros _. apply IH. eapply rule_writable; eauto. Qed.

  Lemma leaf_writes : forall t l, (forall f e, unparse (S f) g t e = cbind (leaf_string e) wrote) -> writes g t (Leaf l).
  Proof.
    intros t l H. exists 1. intros txts T. inversion T as [|? x ? m SX NX]; subst. inversion NX; subst. rewrite H. cbn [leaf_string]. rewrite SX.
    cbn [cbind concat]. rewrite app_nil_r. reflexivity.
  Qed.
  Lemma derives_writes :
    (forall gs vs r t s v s', derives E gs vs r t s v s' -> gs = [g] -> writable t = true -> writes g t v) /\
    (forall gs vs ts s cs s', derives_all E gs vs ts s cs s' -> gs = [g] -> forallb writable ts = true -> Forall2 (writes g) ts cs) /\
    (forall gs vs t s cs s', derives_many E gs vs t s cs s' -> gs = [g] -> writable t = true -> Forall (writes g t) cs).
  Proof.
    apply derives_mutind.
    - intros gs vs r x s pat v s' _ T -> _. inversion T; subst; apply leaf_writes; reflexivity.
    - intros gs vs r x s pat v s' _ T -> _. inversion T; subst; apply leaf_writes; reflexivity.
    - intros gs vs r n t s v s' _ IH Q W. destruct (IH Q W) as (f & K). exists (S f). exact K.
    - intros gs vs r t s v s' _ IH Q W. destruct (IH Q W) as (f & K). exists (S f). exact K.
    - intros gs vs r t g' s v s' _ _ _ W. discriminate W.
    - intros gs vs r x gs' t s v s' RB _ IH -> _. apply rule_body_one in RB as (-> & u & L & AB).
      assert (WU := rule_writable _ _ L). assert (W := IH eq_refl (alias_writable _ _ AB WU)).
      destruct (alias_writes _ _ _ AB W) as (f & K). exists (S f). intros txts T. cbn [unparse]. rewrite L. auto.
    - intros gs vs r ts s cs s' _ IH Q W. destruct (seq_writes _ _ _ (IH Q W)) as (f & K). exists (S f). intros txts T. apply (K f); auto.
    - intros gs vs r ts i t s v s' N _ IH Q W. assert (WT : writable t = true).
      { cbn [writable] in W. rewrite forallb_forall in W. apply W. eapply nth_error_In; eauto. }
      destruct (IH Q WT) as (f & K). exists (S f). intros txts T. cbn [unparse]. rewrite N. apply K. cbn [leaves flat_map] in T. now rewrite app_nil_r in T.
    - intros gs vs r t mn mx s cs s' _ IH _ _ Q W. assert (F := IH Q W). rewrite Forall_forall in F.
      destruct (each_writes g (fun _ => t) cs 0) as (f & K); [intros j c J; apply F; eapply nth_error_In; eauto|].
      exists (S f). intros txts T. apply (K f); auto.
    - intros gs vs r t s v s' _ IH Q W. assert (F := IH Q W).
      destruct (each_writes g (fun _ => t) [v] 0) as (f & K); [intros [|[|j]] c J; try discriminate; injection J as <-; exact F|].
      exists (S f). intros txts T. apply (K f); auto.
    - intros gs vs r t sep a cs ce s v s' items v' D IH DI DR Q W. cbn [writable] in W. apply andb_true_iff in W as [W C]. apply andb_true_iff in W as [W B].
      apply andb_true_iff in W as [W A]. destruct cs; [discriminate|]. destruct ce; [discriminate|]. destruct a; try discriminate.
      cbn [delim_result] in DR. subst v'. apply andb_true_iff in W as [W1 W2].
      assert (WD : writable (delim_seq t sep false false) = true) by (unfold delim_seq; cbn; rewrite W1, W2; reflexivity).
      destruct (proj1 (writes_iff _ _ _) (IH Q WD)) as (f & K). exists (S (S (S (S f)))). intros txts T.
      eapply delim_writes; [exact DI|]. apply K; [lia|]. cbn [leaves] in T. now rewrite (delim_seq_leaves _ _ _ _ _ _ _ _ _ _ _ _ D DI) in T.
    - intros. discriminate.
    - intros. discriminate.
    - intros. constructor.
    - intros gs vs t ts s v s1 cs s' _ IH1 _ IH2 Q W. cbn [forallb] in W. apply andb_true_iff in W as [W1 W2]. constructor; auto.
    - intros. constructor.
    - intros gs vs t s v s1 cs s' _ IH1 _ IH2 Q W. constructor; auto.
  Qed.
  Theorem unparse_leaves : forall r s v s' txts, rule_derives E g r s v s' -> Forall2 shows (leaves v) txts ->
    exists f0, forall f, f0 <= f -> unparse f g (TRule r) v = COk (concat txts, length (concat txts)).
  Proof.
    intros r s v s' txts D T. apply writes_at; auto. eapply (proj1 derives_writes); eauto.
  Qed.
End Rules.

(** * The interface *)

Lemma tagged_unparse : forall f g tag ex cs, lookup tag g <> None -> grammar_unparse f g (Node tag ex cs) = unparse (S f) g (TRule tag) (Node tag ex cs).
Proof. intros f g tag ex cs H. cbn [grammar_unparse unparse]. destruct (lookup tag g); congruence. Qed.
Lemma recompile : forall E g ps, compile E g = COk ps -> no_stack_grammar (p_grammar ps) = true -> compile E (p_grammar ps) = COk ps.
Proof.
  intros E g ps H N. unfold compile in H. apply cbind_inv in H as (g1 & R & H). apply cbind_inv in H as (rules & C & H). injection H as <-. cbn [p_grammar] in *.
  unfold compile. replace (resolve_stacks g1) with (COk g1); [cbn [cbind]; rewrite C; reflexivity|]. unfold resolve_stacks.
  replace (existsb (fun kv => is_stack (snd kv)) g1) with false; auto. symmetry. apply not_true_iff_false. intro X. apply existsb_exists in X as (kv & I & S).
  unfold no_stack_grammar in N. rewrite forallb_forall in N. specialize (N _ I). destruct (snd kv); discriminate.
Qed.
Section Api.
  Variable c : config.
  Hypothesis no_escape : cf_esc c = None.
  Variables (g0 : grammar) (ps : parsers).
  Hypothesis comp : compile (cf_eng c) g0 = COk ps.
  Notation g := (p_grammar ps).
  Hypothesis rd : readable g.
  Hypothesis wg : writable_grammar g = true.

  Theorem result_writes : forall f r s tag ex cs s' txts, drawn_ok (cf_rnd c) (draws c f ps r s) ->
    result (parse_rule c f ps r s) (Node tag ex cs) s' -> tag = r -> Forall2 shows (leaves (Node tag ex cs)) txts ->
    exists f0, forall f', f0 <= f' -> grammar_unparse f' g (Node tag ex cs) = COk (concat txts, length (concat txts)).
  Proof.
    intros f r s tag ex cs s' txts D R -> T. assert (C := recompile _ _ _ comp (proj1 rd)).
    assert (RD : rule_derives (cf_eng c) g r s (Node r ex cs) s') by (eapply result_derives; eauto).
    destruct (unparse_leaves _ _ wg _ _ _ _ _ RD T) as (f0 & K). exists f0. intros f' LE. rewrite tagged_unparse; [apply K; lia|].
    intro L. specialize (K (S f0)). cbn [unparse] in K. rewrite L in K. discriminate K. lia.
  Qed.
  Theorem result_unparses : forall f r s ex cs s', engine_ok (cf_eng c) -> in_range s -> no_groups_grammar (cf_eng c) g -> no_look_grammar g = true ->
    drawn_ok (cf_rnd c) (draws c f ps r s) -> result (parse_rule c f ps r s) (Node r ex cs) s' ->
    exists txt rest f0, shows s (txt ++ rest) /\ shows s' rest /\
      forall f', f0 <= f' -> grammar_unparse f' g (Node r ex cs) = COk (txt, length txt).
  Proof.
    intros f r s ex cs s' OK IR NG NL D R. assert (C := recompile _ _ _ comp (proj1 rd)).
    assert (X : exists txts rest, Forall2 shows (leaves (Node r ex cs)) txts /\ shows s (concat txts ++ rest) /\ shows s' rest)
      by (eapply (result_lossless c no_escape g ps C rd f r); eauto).
    destruct X as (txts & rest & T & S1 & S2).
    destruct (result_writes f r s r ex cs s' txts D R eq_refl T) as (f0 & K). exists (concat txts), rest, f0. auto.
  Qed.
End Api.

Lemma composite_tag : forall E gs vs r t s v s', derives E gs vs r t s v s' -> composite t = true -> r <> ""%string -> exists ex cs, v = Node r ex cs.
Proof.
  intros E gs vs r t s v s' D. induction D; intros C NE; cbn [composite] in C; try discriminate; auto;
    try (unfold tag_or; destruct (String.eqb_spec r ""); [contradiction|eauto]).
  destruct a; try discriminate. match goal with H : delim_result _ _ _ _ |- _ => cbn in H; subst end.
  unfold tag_or. destruct (String.eqb_spec r ""); [contradiction|eauto].
Qed.
Lemma rule_tag : forall E g r t s v s', lookup r g = Some t -> composite t = true -> r <> ""%string -> rule_derives E g r s v s' -> exists ex cs, v = Node r ex cs.
Proof.
  intros E g r t s v s' L C NE D. unfold rule_derives in D. inversion D; subst.
  match goal with H : rule_body _ _ _ _ |- _ => apply rule_body_one in H as (-> & u & L' & AB) end. assert (u = t) by congruence. subst u.
  inversion AB; subst; [|discriminate]. eapply composite_tag; eauto.
Qed.

(** * What is never written *)

Lemma empty_unwritten : forall f g t o, unparse f g t Empty <> COk o.
Proof.
  induction f as [|f IH]; intros g t o; [discriminate|]. cbn [unparse]. destruct t; try discriminate; auto.
  destruct (lookup r g); [auto|discriminate].
Qed.
Lemma each_all : forall rec at_ cs i o, unparse_each rec at_ i cs = COk o -> forall j c, nth_error cs j = Some c -> exists o', rec (at_ (i + j)) c = COk o'.
Proof.
  intros rec at_. induction cs as [|c cs IH]; intros i [x n] H [|j] d J; try discriminate; cbn [unparse_each] in H;
    apply then_write_ok in H as (y & m & z & k & A & B & _ & _).
  - injection J as <-. rewrite Nat.add_0_r. eauto.
  - rewrite Nat.add_succ_r. apply (IH (S i) (z, k) B j d J).
Qed.
Lemma optional_unwritten : forall f g t sep a cs ce tag ex l o, In Empty l -> unparse f g (TDelim t sep a cs ce) (Node tag ex l) <> COk o.
Proof.
  intros [|f] g t sep a cs ce tag ex l o I H; [discriminate|]. destruct ex; try discriminate. rewrite unparse_delim_eq in H.
  apply In_nth_error in I as (j & J). destruct (each_all _ _ _ _ _ H j _ J) as (o' & K). eapply empty_unwritten; eauto.
Qed.
Lemma unlisted_unwritten : forall f g t sep a cs ce v o, unlisted v -> unparse f g (TDelim t sep a cs ce) v <> COk o.
Proof.
  intros [|f] g t sep a cs ce v o U H; [discriminate|]. cbn [unparse] in H. destruct v as [tag ex l| |]; try discriminate.
  destruct ex; try discriminate. eapply U; eauto.
Qed.
Lemma left_unwritten : forall g t sep a cs ce tag l v, nest_left tag l v -> (forall x, hd_error l = Some x -> unlisted x) ->
  forall f o, unparse f g (TDelim t sep a cs ce) v <> COk o.
Proof.
  intros g t sep a cs ce tag l v N. induction N as [v|l v s x N IH]; intros U f o H.
  - eapply unlisted_unwritten; eauto. apply U. reflexivity.
  - destruct f as [|f]; [discriminate|]. rewrite unparse_delim_eq in H. destruct (each_all _ _ _ _ _ H 0 _ eq_refl) as (o' & K).
    change (lr_term t sep (TDelim t sep a cs ce) LeftToRight (0 + 0)) with (TDelim t sep a cs ce) in K.
    refine (IH _ f o' K). intros y Y. apply U. destruct l; [discriminate|exact Y].
Qed.
Lemma right_unwritten : forall g t sep a cs ce tag l v, nest_right tag l v -> (forall x, last_error l = Some x -> unlisted x) ->
  forall f o, unparse f g (TDelim t sep a cs ce) v <> COk o.
Proof.
  intros g t sep a cs ce tag l v N. induction N as [v|l v s x N IH]; intros U f o H.
  - eapply unlisted_unwritten; eauto. apply U. reflexivity.
  - destruct f as [|f]; [discriminate|]. rewrite unparse_delim_eq in H. destruct (each_all _ _ _ _ _ H 2 _ eq_refl) as (o' & K).
    change (lr_term t sep (TDelim t sep a cs ce) RightToLeft (0 + 2)) with (TDelim t sep a cs ce) in K.
    refine (IH _ f o' K). intros y Y. apply U. unfold last_error in *. cbn [rev]. destruct l as [|z l]; [discriminate|]. cbn [rev] in *.
    destruct (rev l ++ [z]) eqn:R; [destruct (rev l); discriminate|]. exact Y.
Qed.

(** A panic stays one with more fuel. *)
Lemma then_write_panic : forall a b, then_write a b = CPanic -> a = CPanic \/ (exists o, a = COk o) /\ b = CPanic.
Proof. intros [[y m]| |] [[z k]| |] H; cbn in H; try discriminate; eauto. Qed.
Lemma then_panic : forall a b, a = CPanic \/ (exists o, a = COk o) /\ b = CPanic -> then_write a b = CPanic.
Proof. intros a b [->|[([y m] & ->) ->]]; reflexivity. Qed.
Lemma unparse_panics : forall f g t e, unparse f g t e = CPanic -> forall f', f <= f' -> unparse f' g t e = CPanic.
Proof.
  induction f as [|f IH]; intros g t e H f' LE; [discriminate|]. destruct f' as [|f']; [lia|]. assert (LE' : f <= f') by lia.
  assert (ST : forall t c (r r' : cres written), (r = CPanic -> r' = CPanic) -> then_write (unparse f g t c) r = CPanic -> then_write (unparse f' g t c) r' = CPanic).
  { intros t0 c r r' R K. apply then_panic. apply then_write_panic in K as [K|[(o & K) L]]; [left; eapply IH; eauto|].
    right. split; auto. exists o. eapply unparse_mono; eauto. }
  assert (SQ : forall ts cs, unparse_seq (unparse f g) ts cs = CPanic -> unparse_seq (unparse f' g) ts cs = CPanic).
  { induction ts as [|t0 ts IHt]; intros cs K; [discriminate|]. cbn [unparse_seq] in *. destruct cs as [|c cs]; [reflexivity|]. revert K. apply ST. auto. }
  assert (EA : forall at_ cs i, unparse_each (unparse f g) at_ i cs = CPanic -> unparse_each (unparse f' g) at_ i cs = CPanic).
  { intros at_. induction cs as [|c cs IHc]; intros i K; [discriminate|]. cbn [unparse_each] in *. revert K. apply ST. auto. }
  cbn [unparse] in *. destruct t; auto; try discriminate.
  - destruct (lookup r g); [|reflexivity]. eapply IH; eauto.
  - destruct e; try reflexivity. auto.
  - destruct e as [tag ex cs| |]; try reflexivity. destruct ex; try reflexivity. destruct cs as [|ch cs]; [reflexivity|].
    destruct (nth_error ts c); [|reflexivity]. eapply IH; eauto.
  - destruct e as [tag ex cs| |]; try reflexivity. destruct ex; try reflexivity. auto.
  - destruct e; try reflexivity. auto.
  - destruct e; try reflexivity. auto.
Qed.
Lemma grammar_panics : forall f g v, grammar_unparse f g v = CPanic -> forall f', f <= f' -> grammar_unparse f' g v = CPanic.
Proof.
  intros f g v H f' LE. destruct v as [tag ex cs| |]; try reflexivity. cbn [grammar_unparse] in *. destruct (lookup tag g); [|reflexivity].
  eapply unparse_panics; eauto.
Qed.
Lemma grammar_writes_mono : forall f g v o, grammar_unparse f g v = COk o -> forall f', f <= f' -> grammar_unparse f' g v = COk o.
Proof.
  intros f g v o H f' LE. destruct v as [tag ex cs| |]; try discriminate. cbn [grammar_unparse] in *. destruct (lookup tag g); [|discriminate].
  eapply unparse_mono; eauto.
Qed.
