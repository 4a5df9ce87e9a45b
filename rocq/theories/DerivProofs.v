(** Successful parses are derivations; cut points only prune. *)
From Verif Require Import Base Scanner Syntax Engine Resolve Compile Parse PegSpec DerivSpec
  CompileProofs FuelProofs PegProofs PegComplete TopProofs.
Local Open Scope Z_scope.

(** * Derivations *)

Theorem peg_derives : forall E,
  (forall gs vs r t s o, peg E gs vs r t s o -> forall v s', o = Succ v s' -> derives E gs vs r t s v s') /\
  (forall gs vs cut r ts acc s o, peg_seq E gs vs cut r ts acc s o -> forall v s', o = Succ v s' ->
     exists cs, v = Node (tag_or r seqTag) XNone (acc ++ cs) /\ derives_all E gs vs ts s cs s') /\
  (forall gs vs r i ts s o, peg_alt E gs vs r i ts s o -> forall v s', o = Succ v s' ->
     exists j t w, nth_error ts j = Some t /\ derives E gs vs "" t s w s' /\
       v = Node (tag_or r oneofTag) (XChoice (i + j)) [w]) /\
  (forall gs vs r mn mx t acc s o, peg_rep E gs vs r mn mx t acc s o ->
     (mx = O \/ (length acc <= mx)%nat) -> forall v s', o = Succ v s' ->
     exists cs, v = Node (tag_or r quantTag) XNone (acc ++ cs) /\ derives_many E gs vs t s cs s' /\
       (mn <= length (acc ++ cs))%nat /\ (mx = 0 \/ length (acc ++ cs) <= mx)%nat).
Proof.
  intros E. apply peg_mutind.
  - intros; subst; eapply D_lit; eauto.
  - intros; subst; eapply D_re; eauto.
  - intros; subst; apply D_named; auto.
  - intros; subst; apply D_cut; auto.
  - intros; subst; apply D_scoped; auto.
  - intros; subst; eapply D_rule; eauto.
  - intros gs vs r ts s o P IH v s' ->. destruct (IH _ _ eq_refl) as (cs & -> & D). apply D_seq; auto.
  - intros gs vs r ts s o P IH v s' ->. destruct (IH _ _ eq_refl) as (j & t & w & N & D & ->).
    eapply D_alt; eauto.
  - intros gs vs r t mn mx s o P IH v s' ->.
    destruct (IH (ltac:(simpl; lia)) _ _ eq_refl) as (cs & -> & D & B1 & B2). apply D_rep; auto.
  - intros gs vs r t sep a cs ce s v s' items v' P IH DI DR w s1 Q. inversion Q; subst.
    eapply D_delim; eauto.
  - intros gs vs r t sep a cs ce s o [-> | ->] P IH v s' Q; discriminate.
  - intros gs vs r t s v s' P IH w s1 Q. inversion Q; subst. eapply D_look; eauto.
  - intros gs vs r t s o [-> | ->] P IH v s' Q; discriminate.
  - intros gs vs r i d s v t v' s' L R P IH T w s1 Q. inversion Q; subst. eapply D_ref; eauto.
  - intros; discriminate.
  - intros gs vs r i d s v t o L R [-> | ->] P IH w s1 Q; discriminate.
  - intros; subst. apply D_ref_default; auto.
  - intros; discriminate.
  - intros gs vs cut r acc s v s' Q. inversion Q; subst. exists []. rewrite app_nil_r. split; auto. constructor.
  - intros gs vs cut cut' r t ts acc s v s1 o P IHP C Q IHQ w s' ->.
    destruct (IHQ _ _ eq_refl) as (cs & -> & D). exists (v :: cs). rewrite <- app_assoc. split; auto.
    econstructor; eauto.
  - intros gs vs cut r t ts acc s P IHP v s' Q. destruct cut; discriminate.
  - intros; discriminate.
  - intros; discriminate.
  - intros gs vs r i t ts s v s' P IH w s1 Q. inversion Q; subst. exists O, t, v.
    rewrite Nat.add_0_r. auto.
  - intros gs vs r i t ts s o P IHP Q IHQ v s' ->. destruct (IHQ _ _ eq_refl) as (j & u & w & N & D & ->).
    exists (S j), u, w. split; auto. split; auto. rewrite Nat.add_succ_r. auto.
  - intros; discriminate.
  - intros gs vs r mn mx t acc s v s1 o RM P IHP Q IHQ B w s' ->.
    destruct IHQ with (v := w) (s' := s') as (cs & -> & D & B1 & B2); auto.
    { rewrite app_length. simpl. unfold room in RM. lia. }
    exists (v :: cs). rewrite <- app_assoc in *. split; auto. split; auto. econstructor; eauto.
  - intros gs vs r mn mx t acc s RM P IHP B v s' Q.
    destruct (Nat.leb_spec mn (length acc)); inversion Q; subst. exists []. rewrite app_nil_r.
    split; auto. split; [constructor|]. split; auto.
  - intros gs vs r mn mx t acc s RM B v s' Q.
    destruct (Nat.leb_spec mn (length acc)); inversion Q; subst. exists []. rewrite app_nil_r.
    split; auto. split; [constructor|]. split; auto.
  - intros; discriminate.
Qed.

(** * Erasure *)

Lemma no_cut_erase : forall t, no_cut (erase t) = true.
Proof.
  induction t using term_ind'; simpl; auto;
    try (rewrite forallb_forall; intros x I; apply in_map_iff in I as (y & <- & I); rewrite Forall_forall in *; auto; fail).
  - rewrite IHt1, IHt2. auto.
  - rewrite IHt. simpl. rewrite forallb_forall. intros x I. apply in_map_iff in I as (y & <- & I).
    rewrite Forall_forall in *. apply (H _ I).
Qed.

Lemma erase_grammar_nocut : forall g, no_cut_grammar (erase_grammar g) = true.
Proof.
  intros g. unfold no_cut_grammar, erase_grammar. rewrite forallb_forall. intros x I.
  apply in_map_iff in I as (y & <- & I). apply no_cut_erase.
Qed.

Lemma map_id_in : forall A (f : A -> A) l, (forall x, In x l -> f x = x) -> map f l = l.
Proof. induction l as [|x l IH]; simpl; intros H; auto. rewrite H by auto. rewrite IH by auto. auto. Qed.

Lemma erase_id : forall t, no_cut t = true -> erase t = t.
Proof.
  induction t using term_ind'; simpl; intros N; auto; try discriminate;
    try (f_equal; apply map_id_in; intros x I; rewrite forallb_forall in N; rewrite Forall_forall in H; auto; fail);
    repeat match goal with H : _ && _ = true |- _ => apply andb_true_iff in H as [? ?] end;
    try (f_equal; auto; fail).
  f_equal; auto. apply map_id_in. intros [k u] I. rewrite forallb_forall in H1. rewrite Forall_forall in H.
  simpl. f_equal. apply (H _ I (H1 _ I)).
Qed.

Lemma headrule_erase : forall t, tidy t = true -> headrule (erase t) = headrule t.
Proof.
  induction t using term_ind'; simpl; intros T; auto;
    repeat match goal with H : _ && _ = true |- _ => apply andb_true_iff in H as [? ?] end; auto.
  rewrite IHt by auto. apply negb_true_iff in H. rewrite H. auto.
Qed.

Lemma label_erase : forall t, tidy t = true -> label (erase t) = label t.
Proof.
  induction t using term_ind'; simpl; intros T; auto;
    repeat match goal with H : _ && _ = true |- _ => apply andb_true_iff in H as [? ?] end; auto.
  - rewrite IHt; auto.
  - rewrite IHt by auto. apply String.eqb_eq in H1. auto.
Qed.

Lemma erase_rule : forall t r, tidy t = true -> erase t = TRule r -> t = TRule r.
Proof.
  intros t r T H. destruct t; simpl in H; try discriminate; auto.
  simpl in T. apply andb_true_iff in T as [T T3]. apply andb_true_iff in T as [T1 T2].
  apply negb_true_iff in T1. rewrite <- (headrule_erase t T3) in T1. rewrite H in T1. discriminate.
Qed.

Lemma lookup_erase : forall g r, lookup r (erase_grammar g) = option_map erase (lookup r g).
Proof.
  intros g r. unfold erase_grammar. induction g as [|[k t] g IH]; simpl; auto.
  destruct (String.eqb r k); auto.
Qed.

Lemma tidy_lookup : forall g r u, tidy_grammar g = true -> lookup r g = Some u -> tidy u = true.
Proof.
  intros g r u T L. unfold tidy_grammar in T. apply andb_true_iff in T as [T _].
  rewrite forallb_forall in T. apply lookup_In in L. apply (T _ L).
Qed.

Lemma alias_body_erase : forall g t t', alias_body g t t' -> tidy_grammar g = true -> tidy t = true ->
  alias_body (erase_grammar g) (erase t) (erase t').
Proof.
  induction 1 as [t N|r t t' L A IH]; intros TG T.
  - constructor. intros r Q. apply erase_rule in Q; auto. eapply N; eauto.
  - econstructor; [rewrite lookup_erase, L; reflexivity|]. apply IH; auto. eapply tidy_lookup; eauto.
Qed.

Definition tidy_all (gs : grammars) : Prop := Forall (fun g => tidy_grammar g = true) gs.

Lemma rule_body_tidy : forall gs r gs' t, rule_body gs r gs' t -> tidy_all gs -> tidy t = true /\ tidy_all gs'.
Proof.
  intros gs r gs' t RB F. induction RB as [g gs r t t' L A|g gs r gs' t L RB IH].
  - split; auto. inversion F as [|? ? G _]; subst.
    eapply (alias_body_in (fun z => tidy z = true)); eauto using tidy_lookup.
  - inversion F; subst. auto.
Qed.

Lemma rule_body_erase : forall gs r gs' t, rule_body gs r gs' t -> tidy_all gs ->
  rule_body (map erase_grammar gs) r (map erase_grammar gs') (erase t).
Proof.
  induction 1 as [g gs r t t' L A|g gs r gs' t L RB IH]; intros F; inversion F; subst; simpl.
  - eapply rb_here; [rewrite lookup_erase, L; reflexivity|]. apply alias_body_erase; auto.
    eapply tidy_lookup; eauto.
  - apply rb_outer; auto. rewrite lookup_erase, L. auto.
Qed.

Lemma wrap_of_erase : forall gs, tidy_all gs -> wrap_of (map erase_grammar gs) = wrap_of gs.
Proof.
  induction 1 as [|g gs T F IH]; simpl; auto. rewrite lookup_erase, IH.
  unfold tidy_grammar in T. apply andb_true_iff in T as [_ T]. unfold wrap_uncut in T.
  destruct (lookup WrapRE g); simpl; auto. rewrite erase_id; auto.
Qed.

Lemma erase_delim_seq : forall t sep cs ce, erase (delim_seq t sep cs ce) = delim_seq (erase t) (erase sep) cs ce.
Proof. intros t sep [] []; reflexivity. Qed.

Lemma tidy_delim_seq : forall t sep cs ce, tidy t && tidy sep = true -> tidy (delim_seq t sep cs ce) = true.
Proof.
  intros t sep cs ce H. apply andb_true_iff in H as [H1 H2].
  unfold delim_seq, Opt, Any. destruct cs, ce; simpl; rewrite H1, H2; auto.
Qed.

Lemma no_cut_tidy : forall v t, ref_term v t -> tidy t = true.
Proof.
  induction v as [tag x cs IH|s0|] using tree_ind'; intros t R; inversion R; subst; auto.
  simpl. match goal with H : Forall2 _ _ _ |- _ => revert H end. clear R.
  revert ts. induction IH; intros ts F; inversion F; subst; simpl; auto.
  apply andb_true_iff. split; eauto.
Qed.

Theorem peg_erase : forall E,
  (forall gs vs r t s o, peg E gs vs r t s o -> tidy_all gs -> tidy t = true -> o <> Abort ->
     peg E (map erase_grammar gs) vs r (erase t) s o) /\
  (forall gs vs cut r ts acc s o, peg_seq E gs vs cut r ts acc s o -> tidy_all gs -> forallb tidy ts = true ->
     o <> Abort -> peg_seq E (map erase_grammar gs) vs false r (map erase ts) acc s o) /\
  (forall gs vs r i ts s o, peg_alt E gs vs r i ts s o -> tidy_all gs -> forallb tidy ts = true ->
     o <> Abort -> peg_alt E (map erase_grammar gs) vs r i (map erase ts) s o) /\
  (forall gs vs r mn mx t acc s o, peg_rep E gs vs r mn mx t acc s o -> tidy_all gs -> tidy t = true ->
     o <> Abort -> peg_rep E (map erase_grammar gs) vs r mn mx (erase t) acc s o).
Proof.
  intros E. apply peg_mutind.
  - intros gs vs r x s pat o TP T G _ _. eapply P_lit; eauto. rewrite wrap_of_erase; auto.
  - intros gs vs r x s pat o TP T G _ _. eapply P_re; eauto. rewrite wrap_of_erase; auto.
  - intros gs vs r n t s o P IH G T N. simpl. apply P_named; auto.
  - intros gs vs r t s o P IH G T N. simpl in *. apply andb_true_iff in T as [_ T]. auto.
  - intros gs vs r t g s o P IH G T N. simpl in *. apply andb_true_iff in T as [T T3]. apply andb_true_iff in T as [T1 T2].
    apply P_scoped. apply (IH (Forall_cons _ (proj2 (andb_true_iff _ _) (conj T2 T3)) G) T1 N).
  - intros gs vs r x gs' t s o RB P IH G T N. simpl. destruct (rule_body_tidy _ _ _ _ RB G).
    eapply P_rule; [eapply rule_body_erase; eauto|auto].
  - intros gs vs r ts s o P IH G T N. simpl. apply P_seq; auto.
  - intros gs vs r ts s o P IH G T N. simpl. apply P_oneof; auto.
  - intros gs vs r t mn mx s o P IH G T N. simpl. apply P_quant; auto.
  - intros gs vs r t sep a cs ce s v s' items v' P IH DI DR G T N. simpl in *.
    eapply P_delim; eauto. rewrite <- erase_delim_seq. apply IH; [auto|apply tidy_delim_seq; auto|discriminate].
  - intros gs vs r t sep a cs ce s o O P IH G T N. simpl in *.
    apply P_delim_no; auto. rewrite <- erase_delim_seq. apply IH; [auto|apply tidy_delim_seq; auto|auto].
  - intros gs vs r t s v s' P IH G T N. simpl in *. eapply P_look. apply IH; auto; discriminate.
  - intros gs vs r t s o O P IH G T N. simpl in *. apply P_look_no; auto.
  - intros gs vs r i d s v t v' s' L R P IH TX G T N. simpl. eapply P_ref; eauto.
  - intros gs vs r i d s v t v' s' L R P IH TX G T N. simpl. eapply P_ref_differs; eauto.
  - intros gs vs r i d s v t o L R O P IH G T N. simpl. eapply P_ref_no; eauto.
  - intros gs vs r i d s o L P IH G T N. simpl. apply P_ref_default; auto.
  - intros. simpl. apply P_ref_unbound; auto.
  - intros. constructor.
  - intros gs vs cut cut' r t ts acc s v s1 o P IHP C Q IHQ G T N. simpl in *.
    apply andb_true_iff in T as [T1 T2].
    eapply PS_next; [apply IHP; auto; discriminate| |].
    + right. split; [|reflexivity]. intros X. apply no_cut_commits in X.
      * rewrite no_cut_erase in X. discriminate.
      * apply Forall_forall. intros g I. apply in_map_iff in I as (g' & <- & _). apply erase_grammar_nocut.
    + rewrite label_erase by auto. apply IHQ; auto.
  - intros gs vs cut r t ts acc s P IHP G T N. simpl in *. apply andb_true_iff in T as [T1 T2].
    destruct cut; [congruence|]. apply (PS_fail E _ vs false). apply IHP; auto.
  - intros. congruence.
  - intros. constructor.
  - intros gs vs r i t ts s v s' P IH G T N. simpl in *. apply andb_true_iff in T as [T1 T2].
    apply PA_here. apply IH; auto. discriminate.
  - intros gs vs r i t ts s o P IHP Q IHQ G T N. simpl in *. apply andb_true_iff in T as [T1 T2].
    apply PA_next; [apply IHP; auto; discriminate|apply IHQ; auto].
  - intros. congruence.
  - intros gs vs r mn mx t acc s v s1 o RM P IHP Q IHQ G T N.
    eapply PR_more; eauto. apply IHP; auto; discriminate.
  - intros gs vs r mn mx t acc s RM P IHP G T N. apply PR_stop; auto. apply IHP; auto; discriminate.
  - intros. apply PR_full; auto.
  - intros. congruence.
Qed.

Lemma means_erase : forall E g r s o, tidy_grammar g = true -> means E g r s o -> o <> Abort ->
  means E (erase_grammar g) r s o.
Proof.
  intros E g r s o T M N. apply (proj1 (peg_erase E) [g] [] ""%string (TRule r)); auto.
  constructor; auto.
Qed.
