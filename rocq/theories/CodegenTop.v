(** What the generated code stands for. *)
From Verif Require Import Base Scanner Syntax Engine Resolve Compile Parse PegSpec CompileProofs StackSpec StackProofs ReorderProofs StackCut ChainProofs.
From Verif Require Import GoSpec CodegenSpec Codegen GoProofs CodegenProofs FillProofs.
Local Open Scope nat_scope.

Lemma go_grammar_fun : forall src g g', go_grammar src g -> go_grammar src g' -> g = g'.
Proof. intros src g g' [_ A] [_ B]. congruence. Qed.

(** ** Quantifiers *)
Lemma wrapper_quants : forall t, wrapper t -> quants_b t = true.
Proof.
  assert (T : forall t, token_term t -> quants_b t = true) by (intros t (s & [->| ->]); auto). intros t [H|(ts & -> & F)]; auto.
  cbn. apply forallb_forall. rewrite Forall_forall in F. auto.
Qed.
Lemma filled_quants : forall t w, wrap_ok w -> steady t -> quants_b (filled w t) = quants_b t.
Proof.
  assert (L : forall ts w, Forall (fun t => forall w, wrap_ok w -> steady t -> quants_b (filled w t) = quants_b t) ts -> wrap_ok w -> Forall steady ts ->
    forallb quants_b (map (filled w) ts) = forallb quants_b ts).
  { intros ts w F WO. induction F; intros C; simpl; auto. inversion C; subst. f_equal; auto. }
  induction t using term_ind'; intros w WO C; cbn [filled quants_b]; auto; try (inversion C; subst; (f_equal; auto; fail) || auto; fail).
  inversion C as [| | | | | | | | | | | | |? ? CT CG]; subst. assert (W' : wrap_ok (own_or w g)) by (apply own_or_ok; auto). fold (own_or w g). rewrite IHt by auto. f_equal.
  rewrite forallb_app. assert (I : forallb (fun kv : string * term => quants_b (snd kv)) (inherited w g) = true).
  { unfold inherited. destruct w as [x|]; auto. destruct (lookup WrapRE g); auto. destruct (existsb _ g); auto. cbn. rewrite wrapper_quants; auto. }
  rewrite I, Bool.andb_true_r. inversion CG as [? F]; subst. clear I CG C WO. revert F W'. generalize (own_or w g). induction H as [|kv g HK H IH]; intros o F WO; auto.
  inversion F as [|? ? [_ S1] F']; subst. cbn [map forallb snd]. rewrite HK by auto. f_equal. apply IH; auto.
Qed.
Lemma fill_quants : forall g, steady_grammar g -> quants_grammar_b (fill g) = quants_grammar_b g.
Proof.
  intros g C. pose proof (w_ok g C) as WO. inversion C as [? F]; subst. unfold fill, quants_grammar_b. revert F WO. generalize (lookup WrapRE g). clear C. intros w F WO.
  induction F as [|kv g [_ S1] F IH]; auto. cbn [map forallb snd]. rewrite filled_quants by auto. f_equal. auto.
Qed.
Lemma simple_b_ok : forall mn mx, simple_b mn mx = true <-> simple_quant mn mx.
Proof.
  intros mn mx. unfold simple_b, simple_quant. rewrite !Bool.orb_true_iff, !Bool.andb_true_iff, !Nat.eqb_eq. cbn [In]. split.
  - intros [[[-> ->]|[-> ->]]|[-> ->]]; auto.
  - intros [H|[H|[H|[]]]]; injection H as <- <-; auto.
Qed.
Lemma quants_b_ok : forall t, quants_b t = true <-> forall mn mx, quantified mn mx t -> simple_quant mn mx.
Proof.
  assert (L : forall ts, Forall (fun t => quants_b t = true <-> forall mn mx, quantified mn mx t -> simple_quant mn mx) ts ->
    (forallb quants_b ts = true <-> forall mn mx, Exists (quantified mn mx) ts -> simple_quant mn mx)).
  { intros ts F. rewrite forallb_forall. rewrite Forall_forall in F. split.
    - intros H mn mx X. apply Exists_exists in X as (t & I & X). apply (proj1 (F _ I) (H _ I)). auto.
    - intros H t I. apply (F _ I). intros mn mx X. apply H. apply Exists_exists. eauto. }
  induction t as [r|x|x|i d|x|ts IH|ts IH|ts IH|u sep a cs ce IHu IHs|u IHu|u mn mx IHu|n u IHu|u g IHu IHg|u IHu] using term_ind'; cbn [quants_b];
    try (split; auto; intros _ mn mx X; inversion X; fail).
  - rewrite (L _ IH). split; intros H mn mx X; [inversion X; subst; auto|apply H; constructor; auto].
  - rewrite (L _ IH). split; intros H mn mx X; [inversion X; subst; auto|apply H; constructor; auto].
  - rewrite (L _ IH). split; intros H mn mx X; [inversion X; subst; auto|apply H; constructor; auto].
  - rewrite Bool.andb_true_iff, IHu, IHs. split; [intros [A B] mn mx X; inversion X; subst; auto|]. intros H. split; intros mn mx X; apply H; [apply qu_delim_term|apply qu_delim_sep]; auto.
  - rewrite IHu. split; intros H mn mx X; [inversion X; subst; auto|apply H; constructor; auto].
  - rewrite Bool.andb_true_iff, IHu, simple_b_ok. split; [intros [A B] mn' mx' X; inversion X; subst; auto|]. intros H. split; [apply H; constructor|]. intros mn' mx' X. apply H. apply qu_quant. auto.
  - rewrite IHu. split; intros H mn mx X; [inversion X; subst; auto|apply H; constructor; auto].
  - rewrite Bool.andb_true_iff, IHu, forallb_forall. rewrite Forall_forall in IHg. split.
    + intros [A B] mn mx X. inversion X as [| | | | | | | | | | |? ? Y]; subst; auto. apply Exists_exists in Y as (kv & I & Y). apply (proj1 (IHg _ I) (B _ I)). auto.
    + intros H. split; [intros mn mx X; apply H; apply qu_scoped_term; auto|]. intros kv I. apply (IHg _ I). intros mn mx X. apply H. apply qu_scoped_rule. apply Exists_exists. eauto.
  - rewrite IHu. split; intros H mn mx X; [inversion X; subst; auto|apply H; constructor; auto].
Qed.
Lemma quants_grammar_b_ok : forall g, quants_grammar_b g = true <-> simple_grammar g.
Proof.
  intros g. unfold quants_grammar_b, simple_grammar. rewrite forallb_forall. split.
  - intros H r t mn mx I. apply quants_b_ok. apply (H _ I).
  - intros H [r t] I. apply quants_b_ok. intros mn mx. apply (H _ _ _ _ I).
Qed.

Section Top.
  Variables (E : engine) (g : grammar) (ps : parsers).
  Hypothesis W : writable_grammar g.
  Hypothesis C : steady_grammar g.
  Hypothesis OK : compile E g = COk ps.

  Lemma fill_facts : exists ps', compile E (fill g) = COk ps' /\ p_grammar ps' = fill (p_grammar ps) /\
    (forall c f r s, parse_rule c f ps' r s = parse_rule c f ps r s) /\ unstacked (fill g) (fill (p_grammar ps)) /\
    NoDup (keys (fill (p_grammar ps))) /\ (forall r ls, lookup r (fill (p_grammar ps)) = Some (TStack ls) -> ls = []).
  Proof.
    destruct (fill_compiles _ _ _ C OK) as (_ & ps' & OK' & PG & PP). exists ps'. split; auto. split; auto. split; auto. rewrite <- PG.
    pose proof (writable_fill _ W) as WF. inversion WF as [? N F]; subst. apply (compile_unstacks E); auto.
    apply clear_at_free. intros k I. unfold keys in I. apply in_map_iff in I as (kv & <- & I). rewrite Forall_forall in F. apply rule_name_at. apply (F _ I).
  Qed.
  Lemma generated_value : utf8 (generated_code ps) /\ read_grammar (generated_code ps) = if quants_grammar_b g then Some (written (fill g) (fill (p_grammar ps))) else None.
  Proof. destruct fill_facts as (ps' & _ & _ & _ & U & N & NS). rewrite <- (fill_quants g C). apply written_read; auto. apply writable_fill; auto. Qed.
  Lemma generated_simple : (exists g', go_grammar (generated_code ps) g') <-> simple_grammar g.
  Proof.
    rewrite <- quants_grammar_b_ok. destruct generated_value as [UT V]. split.
    - intros (g' & _ & R). rewrite R in V. destruct (quants_grammar_b g); congruence.
    - intros Q. rewrite Q in V. eexists. split; eauto.
  Qed.
  Lemma generated_is : forall g', go_grammar (generated_code ps) g' -> g' = written (fill g) (fill (p_grammar ps)).
  Proof. intros g' [_ R]. destruct generated_value as [_ V]. rewrite R in V. destruct (quants_grammar_b g); congruence. Qed.
  Lemma generated_parses : forall g', go_grammar (generated_code ps) g' ->
    exists ps', compile E g' = COk ps' /\ forall c f r s, parse_rule c f ps' r s = parse_rule c f ps r s.
  Proof.
    intros g' R. rewrite (generated_is _ R). destruct fill_facts as (ps1 & OK1 & _ & PP & U & N & NS).
    destruct (written_compiles (fill g) (fill (p_grammar ps)) (writable_fill _ W) U N NS _ _ OK1) as (ps' & OK' & PQ). exists ps'. split; auto. intros. rewrite PQ. auto.
  Qed.
  Lemma generated_rule : forall g' r t, go_grammar (generated_code ps) g' -> lookup r g = Some t -> (forall l ls, t <> TStack (l :: ls)) ->
    exists u t', inherits (lookup WrapRE g) t u /\ reordered u t' /\ lookup r g' = Some t'.
  Proof.
    intros g' r t R L NSt. rewrite (generated_is _ R). destruct fill_facts as (ps1 & OK1 & _ & PP & U & N & NS).
    destruct (written_rule (fill g) (fill (p_grammar ps)) (writable_fill _ W) U N r (filled (lookup WrapRE g) t)) as (t' & L' & RO).
    - rewrite lookup_fill, L. auto.
    - intros l ls X. destruct t; try discriminate. cbn in X. injection X as ->. apply (NSt l ls eq_refl).
    - exists (filled (lookup WrapRE g) t), t'. split; auto. apply fills_inherits, filled_fills.
      + apply (w_ok g C).
      + inversion C as [? F]; subst. apply lookup_In in L. rewrite Forall_forall in F. apply (F _ L).
  Qed.
  Lemma generated_stack : forall g' r ls l, go_grammar (generated_code ps) g' -> lookup r g = Some (TStack (ls ++ [l])) -> ls <> [] -> ~ mentions "@" l ->
    lookup r g' = Some (TStack (map uncut (ls ++ [l]))).
  Proof.
    intros g' r ls l R L NE M. rewrite (generated_is _ R). destruct fill_facts as (ps1 & OK1 & _ & PP & U & N & NS).
    apply (written_stack (fill g) (fill (p_grammar ps)) (writable_fill _ W) U N); auto. rewrite lookup_fill, L. auto.
  Qed.
  Lemma generated_only : forall g' r, go_grammar (generated_code ps) g' -> lookup r g = None -> lookup r g' = None.
  Proof.
    intros g' r R L. rewrite (generated_is _ R). destruct fill_facts as (ps1 & OK1 & _ & PP & U & N & NS).
    apply (written_only (fill g) (fill (p_grammar ps)) (writable_fill _ W) U N); auto. rewrite lookup_fill, L. auto.
  Qed.
End Top.

(** * Checking the conditions *)

Definition clean_b (s : bytes) : bool := forallb (fun c => (Nat.ltb 0 (nat_of_ascii c) && Nat.ltb (nat_of_ascii c) 128 && negb (Ascii.eqb c cr))%bool) s.
Definition raw_name_b (n : string) : bool := (clean_b (bs n) && negb (existsb (Ascii.eqb "`") (bs n)))%bool.
Definition rule_name_b (n : string) : bool :=
  (clean_b (bs n) && forallb (fun c => negb (existsb (Ascii.eqb c) ["`"; """"; "\"; "@"; nl]%char)) (bs n))%bool.
Definition token_b (t : term) : bool := match t with TS _ | TRE _ => true | _ => false end.
Definition wrapper_b (t : term) : bool := match t with TS _ | TRE _ => true | TOneof ts => forallb token_b ts | _ => false end.
(** Both [writable] and [steady]. *)
Fixpoint fit_b (t : term) : bool :=
  match t with
  | TRule r => (String.eqb r "@" || (raw_name_b r && negb (existsb (Ascii.eqb "@") (bs r))) && negb (String.eqb r WrapRE))%bool
  | TS s | TRE s => clean_b s
  | TExtRef s => clean_b (bs s)
  | TREF i d => (raw_name_b i && match d with Some s => clean_b s | None => true end)%bool
  | TSeq ts | TOneof ts | TStack ts => forallb fit_b ts
  | TDelim t sep _ _ _ => (fit_b t && fit_b sep)%bool
  | TLookAhead t | TCut t => fit_b t
  | TQuant t _ _ => fit_b t
  | TNamed n t => (raw_name_b n && fit_b t)%bool
  | TScoped t g => (fit_b t && nodup_b (keys g)
      && forallb (fun kv : string * term => rule_name_b (fst kv) && fit_b (snd kv) && (negb (String.eqb (fst kv) WrapRE) || wrapper_b (snd kv)))%bool g)%bool
  end.
Definition fit_grammar_b (g : grammar) : bool :=
  (nodup_b (keys g) && forallb (fun kv : string * term => rule_name_b (fst kv) && fit_b (snd kv) && (negb (String.eqb (fst kv) WrapRE) || wrapper_b (snd kv)))%bool g)%bool.

Lemma clean_b_ok : forall s, clean_b s = true -> clean s.
Proof.
  intros s H. unfold clean_b in H. rewrite forallb_forall in H. split.
  - induction s as [|c s IH]; [apply utf8_nil|]. apply utf8_1; [|apply IH; intros; apply H; right; auto].
    specialize (H c (or_introl eq_refl)). apply andb_prop in H as [H _]. apply andb_prop in H as [A B]. apply Nat.ltb_lt in A, B. auto.
  - intros I. specialize (H _ I). rewrite Ascii.eqb_refl in H. rewrite andb_false_r in H. discriminate.
Qed.
Lemma existsb_ascii : forall c l, existsb (Ascii.eqb c) l = false -> ~ In c l.
Proof. intros c l H I. assert (X : existsb (Ascii.eqb c) l = true) by (apply existsb_exists; exists c; split; auto; apply Ascii.eqb_refl). congruence. Qed.
Lemma raw_name_b_ok : forall n, raw_name_b n = true -> raw_name n.
Proof. intros n H. apply andb_prop in H as [A B]. split; [apply clean_b_ok; auto|]. apply existsb_ascii. apply negb_true_iff in B. auto. Qed.
Lemma rule_name_b_ok : forall n, rule_name_b n = true -> rule_name n.
Proof.
  intros n H. apply andb_prop in H as [A B]. split; [apply clean_b_ok; auto|]. intros c I J. rewrite forallb_forall in B. specialize (B _ J). apply negb_true_iff in B. apply existsb_ascii in B. auto.
Qed.
Lemma token_b_ok : forall t, token_b t = true -> token_term t.
Proof. intros t H. destruct t; try discriminate; eexists; eauto. Qed.
Lemma wrapper_b_ok : forall t, wrapper_b t = true -> wrapper t.
Proof.
  intros t H. destruct t; try discriminate; try (left; eexists; eauto; fail). right. eexists. split; [reflexivity|]. cbn in H. rewrite forallb_forall in H. apply Forall_forall. intros x I. apply token_b_ok; auto.
Qed.
Lemma fit_list : forall (P : term -> Prop) ts, Forall (fun t => fit_b t = true -> writable t /\ steady t) ts -> forallb fit_b ts = true -> Forall writable ts /\ Forall steady ts.
Proof.
  intros P ts F H. rewrite forallb_forall in H. rewrite Forall_forall in F. split; apply Forall_forall; intros x I; apply F; auto.
Qed.
Lemma fit_rules : forall g, Forall (fun kv : string * term => fit_b (snd kv) = true -> writable (snd kv) /\ steady (snd kv)) g -> nodup_b (keys g) = true ->
  forallb (fun kv : string * term => rule_name_b (fst kv) && fit_b (snd kv) && (negb (String.eqb (fst kv) WrapRE) || wrapper_b (snd kv)))%bool g = true ->
  writable_grammar g /\ steady_grammar g.
Proof.
  intros g F N H. rewrite forallb_forall in H. rewrite Forall_forall in F. split; constructor; [apply nodup_b_ok; auto| |]; apply Forall_forall; intros x I; specialize (H _ I); apply andb_prop in H as [H B]; apply andb_prop in H as [H A].
  - split; [apply rule_name_b_ok; auto|apply F; auto].
  - split; [|apply F; auto]. intros X. rewrite X in B. rewrite String.eqb_refl in B. apply wrapper_b_ok. auto.
Qed.
Lemma fit_b_ok : forall t, fit_b t = true -> writable t /\ steady t.
Proof.
  induction t using term_ind'; intros F; cbn [fit_b] in F;
    try (apply andb_prop in F as [F1 F2]);
    try (destruct (fit_list (fun _ => True) _ H F); split; constructor; auto; fail);
    try (split; constructor; auto using clean_b_ok; fail).
  - apply orb_prop in F as [F|F].
    + apply String.eqb_eq in F. subst. split; constructor. discriminate.
    + apply andb_prop in F as [F C]. apply andb_prop in F as [A B]. apply negb_true_iff in B, C. split; constructor; [apply raw_name_b_ok; auto|apply existsb_ascii; auto|].
      intros ->. rewrite String.eqb_refl in C. discriminate.
  - split; constructor; [apply raw_name_b_ok; auto|]. destruct d; auto. apply clean_b_ok; auto.
  - destruct (IHt1 F1), (IHt2 F2). split; constructor; auto.
  - destruct (IHt F). split; constructor; auto.
  - destruct (IHt F). split; constructor; auto.
  - destruct (IHt F2). split; constructor; auto. apply raw_name_b_ok; auto.
  - apply andb_prop in F1 as [F0 F1]. destruct (IHt F0). destruct (fit_rules _ H F1 F2). split; constructor; auto.
  - destruct (IHt F). split; constructor; auto.
Qed.
Lemma fit_grammar_b_ok : forall g, fit_grammar_b g = true -> writable_grammar g /\ steady_grammar g.
Proof.
  intros g F. apply andb_prop in F as [F1 F2]. apply fit_rules; auto. apply Forall_forall. intros kv _. apply fit_b_ok.
Qed.
