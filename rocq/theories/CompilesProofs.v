(** Compiling succeeds exactly for the grammars of CompilesSpec.v. *)
From Verif Require Import Base Scanner Syntax Engine Resolve Compile Parse PegSpec StackSpec CompileProofs StackProofs TopProofs CompilesSpec.

(** * Aliases *)

(** The chain of aliases has at most as many links as there are rules. *)
Inductive trail (g : grammar) : term -> list string -> term -> Prop :=
| tr_end : forall t, (forall r, t <> TRule r) -> trail g t [] t
| tr_step : forall r t p t', lookup r g = Some t -> trail g t p t' -> trail g (TRule r) (r :: p) t'.

Lemma alias_trail : forall g t u, alias_body g t u -> exists p, trail g t p u.
Proof. induction 1 as [t N|r t u L A (p & T)]; [exists []; constructor; auto|exists (r :: p); econstructor; eauto]. Qed.
Lemma trail_fun : forall g t p u, trail g t p u -> forall q v, trail g t q v -> p = q.
Proof.
  induction 1 as [t N|r t p u L T IH]; intros q v H; inversion H; subst; auto.
  - exfalso. eapply N; eauto.
  - exfalso. eapply H0; eauto.
  - f_equal. eapply IH. replace t with t0 by congruence. eauto.
Qed.
Lemma trail_in : forall g t p u r, trail g t p u -> In r p -> exists q, trail g (TRule r) q u /\ length q <= length p.
Proof.
  induction 1 as [t N|x t p u L T IH]; intros I; [destruct I|]. destruct I as [->|I].
  - exists (r :: p). split; [econstructor; eauto|auto].
  - destruct (IH I) as (q & A & B). exists q. split; auto. simpl. lia.
Qed.
Lemma trail_nodup : forall g t p u, trail g t p u -> NoDup p /\ incl p (keys g).
Proof.
  induction 1 as [t N|x t p u L T [IH J]]; [split; [constructor|intros ? []]|]. split.
  - constructor; auto. intro I. destruct (trail_in _ _ _ _ _ T I) as (q & A & B).
    assert (Q : trail g (TRule x) (x :: p) u) by (econstructor; eauto).
    apply (trail_fun _ _ _ _ A) in Q. subst q. simpl in B. lia.
  - intros y [<-|I]; auto. apply lookup_In in L. unfold keys. apply in_map_iff. exists (x, t). auto.
Qed.
Lemma chase_trail : forall E w g t p u, trail g t p u -> forall n, length p <= n ->
  chase n (rule_fns E w g) t (term_parser E t w) = COk (term_parser E u w).
Proof.
  induction 1 as [t N|x t p u L T IH]; intros n LE.
  - destruct n, t; simpl; auto; exfalso; eapply N; reflexivity.
  - destruct n as [|n]; simpl in LE; [lia|]. cbn [chase]. rewrite lookup_rule_fns, L. cbn [option_map]. apply IH. lia.
Qed.
Lemma chase_reaches : forall E w g t u, alias_body g t u ->
  chase (S (length (rule_fns E w g))) (rule_fns E w g) t (term_parser E t w) = COk (term_parser E u w).
Proof.
  intros E w g t u A. destruct (alias_trail _ _ _ A) as (p & T). apply (chase_trail _ _ _ _ _ _ T).
  destruct (trail_nodup _ _ _ _ T) as [N I]. pose proof (NoDup_incl_length N I) as L.
  unfold rule_fns. rewrite map_length. unfold keys in L. rewrite map_length in L. lia.
Qed.

(** * Terms *)

Lemma usable_iff : forall E w s pre, usable E w s pre <-> exists re', cbind (apply_wrap w s pre) (must_compile E) = COk re'.
Proof.
  intros E w s pre. unfold usable. split.
  - intros (pat & A & B). apply apply_wrap_spec in A. rewrite A. cbn [cbind]. unfold must_compile, anchor. rewrite B. eauto.
  - intros (re' & H). apply cbind_ok in H as (pat & A & B). apply apply_wrap_spec in A. exists pat. split; auto.
    unfold must_compile, anchor in B. destruct (re_valid E (bs "(?m)\A" ++ pat)); [auto|discriminate].
Qed.

Lemma traverse_all : forall {A B} (f : A -> cres B) l, (exists ys, ctraverse f l = COk ys) <-> Forall (fun x => exists y, f x = COk y) l.
Proof.
  intros A B f l. split.
  - intros (ys & H). apply ctraverse_ok in H. induction H; constructor; eauto.
  - induction 1 as [|x l (y & H) _ (ys & IH)]; [exists []; reflexivity|]. simpl. rewrite H. simpl. rewrite IH. simpl. eauto.
Qed.

Lemma bind_ok_iff : forall {A B} (m : cres A) (f : A -> B), (exists b, cbind m (fun a => COk (f a)) = COk b) <-> exists a, m = COk a.
Proof. intros A B [a| |] f; simpl; split; intros (x & H); try discriminate; eauto. Qed.

Lemma Forall_rule_fns : forall E w g (P : string * (term * (string -> cres parser)) -> Prop),
  Forall P (rule_fns E w g) <-> Forall (fun kv => P (fst kv, (snd kv, term_parser E (snd kv) w))) g.
Proof. intros. unfold rule_fns. apply Forall_map. Qed.

Lemma rules_compile : forall E w g, (forall r t, In (r, t) g -> forall rule, (exists p, term_parser E t w rule = COk p) <-> compiles E w t) ->
  (exists rules, compile_rules (rule_fns E w g) = COk rules) <->
  Forall (fun kv => exists u, alias_body g (snd kv) u /\ compiles E w u) g.
Proof.
  intros E w g IH. unfold compile_rules. rewrite traverse_all. rewrite Forall_rule_fns. rewrite !Forall_forall.
  assert (Q : forall r t u, In (r, t) g -> alias_body g t u -> exists r', In (r', u) g).
  { intros r t u I A. revert r I. induction A as [t N|x t u L A IHA]; intros r I; [eauto|]. apply (IHA x). apply lookup_In in L. auto. }
  split; intros H [r t] I; specialize (H _ I); cbn [fst snd] in *.
  - destruct H as (y & H). apply cbind_ok in H as (f' & C & H). destruct (chase_ok _ _ _ _ _ _ C) as (u & A & ->).
    apply cbind_ok in H as (p & P & _). destruct (Q _ _ _ I A) as (r' & I'). exists u. split; auto. apply (IH _ _ I' r). eauto.
  - destruct H as (u & A & C). rewrite (chase_reaches _ _ _ _ _ A). cbn [cbind].
    destruct (Q _ _ _ I A) as (r' & I'). apply (IH _ _ I' r) in C as (p & ->). cbn [cbind]. eauto.
Qed.

Lemma term_compiles : forall E t w rule, (exists p, term_parser E t w rule = COk p) <-> compiles E w t.
Proof.
  intro E.
  assert (L : forall ts, Forall (fun t => forall w rule, (exists p, term_parser E t w rule = COk p) <-> compiles E w t) ts ->
    forall w, (exists ps, ctraverse (fun x => cbind (term_parser E x w "") (fun p => COk (reg p))) ts = COk ps) <-> Forall (compiles E w) ts).
  { intros ts H w. rewrite traverse_all. split; intro A; rewrite Forall_forall in *; intros x I.
    - apply (H x I w ""%string). specialize (A x I). apply bind_ok_iff in A; auto. - apply bind_ok_iff. apply (H x I w ""%string). auto. }
  induction t using term_ind'; intros w rule; cbn [term_parser].
  - split; [constructor|eauto].
  - split.
    + intros (p & H). constructor. apply usable_iff. apply cbind_ok in H as (re & A & H). apply cbind_ok in H as (re' & B & H).
      unfold group in A. simpl in A |- *. rewrite A. exists re'. auto.
    + intro H. inversion H as [| | |? ? U| | | | | | | | |]; subst. apply usable_iff in U as (re' & U). unfold group. simpl in U |- *.
      apply cbind_ok in U as (re & A & B). rewrite A. cbn [cbind]. rewrite B. cbn [cbind]. eauto.
  - split.
    + intros (p & H). constructor. apply usable_iff. apply cbind_ok in H as (re & A & H). apply cbind_ok in H as (re' & B & H).
      unfold group in A. simpl in A |- *. rewrite A. exists re'. auto.
    + intro H. inversion H as [| | | |? ? U| | | | | | | |]; subst. apply usable_iff in U as (re' & U). unfold group. simpl in U |- *.
      apply cbind_ok in U as (re & A & B). rewrite A. cbn [cbind]. rewrite B. cbn [cbind]. eauto.
  - split; [constructor|eauto].
  - split; [constructor|eauto].
  - rewrite bind_ok_iff, (L ts H w). split; [constructor; auto|intro C; inversion C; auto].
  - rewrite bind_ok_iff, (L ts H w). split; [constructor; auto|intro C; inversion C; auto].
  - split; [intros (p & C); discriminate|intro C; inversion C].
  - split.
    + intros (p & C). apply cbind_ok in C as (p1 & C1 & C). apply cbind_ok in C as (p2 & C2 & C).
      constructor; [apply (IHt1 w ""%string)|apply (IHt2 w ""%string)]; eauto.
    + intro C. inversion C as [| | | | | | |? ? ? ? ? ? X1 X2| | | | |]; subst. apply (proj2 (IHt1 w ""%string)) in X1 as (p1 & ->). apply (proj2 (IHt2 w ""%string)) in X2 as (p2 & ->). cbn [cbind]. eauto.
  - rewrite bind_ok_iff, IHt. split; [constructor; auto|intro C; inversion C; auto].
  - rewrite bind_ok_iff, IHt. split; [constructor; auto|intro C; inversion C; auto].
  - rewrite IHt. split; [constructor; auto|intro C; inversion C; auto].
  - set (v := match lookup WrapRE g with Some x => Some x | None => w end). fold (rule_fns E v g).
    assert (R : (exists rules, compile_rules (rule_fns E v g) = COk rules) <-> Forall (fun kv => exists u, alias_body g (snd kv) u /\ compiles E v u) g).
    { apply rules_compile. intros r u I rule'. rewrite Forall_forall in H. apply (H _ I v rule'). }
    split.
    + intros (p & C). apply cbind_ok in C as (rules & C1 & C). apply cbind_ok in C as (p1 & C2 & C).
      apply (cm_scoped E w t g v eq_refl); [apply R; eauto|apply (IHt v rule); eauto].
    + intro C. inversion C as [| | | | | | | | | | | |? ? ? v' EV A B]; subst. apply R in A as (rules & ->). cbn [cbind].
      apply (proj2 (IHt v rule)) in B as (p & ->). cbn [cbind]. eauto.
  - rewrite bind_ok_iff, IHt. split; [constructor; auto|intro C; inversion C; auto].
Qed.

(** * Grammars *)

Lemma tame_prep : forall t, tame t = true -> prep t = COk t.
Proof.
  assert (L : forall ts, Forall (fun t => tame t = true -> prep t = COk t) ts -> forallb tame ts = true -> ctraverse prep ts = COk ts).
  { induction 1 as [|t ts H _ IH]; simpl; intro T; auto. apply andb_true_iff in T as [A B]. rewrite H, IH; auto. }
  induction t using term_ind'; simpl; intro T; auto.
  - rewrite L; auto. - rewrite L; auto.
  - apply andb_true_iff in T as [A B]. rewrite IHt1, IHt2; auto.
  - rewrite IHt; auto. - rewrite IHt; auto. - rewrite IHt; auto.
  - apply andb_true_iff in T as [A B]. rewrite IHt; auto. cbn [cbind].
    assert (X : ctraverse (fun kv : string * term => cbind (prep (snd kv)) (fun u => COk (fst kv, u))) g = COk g).
    { clear - H B. induction H as [|[r u] g H _ IH]; simpl in *; auto. apply andb_true_iff in B as [B1 B2]. apply andb_true_iff in B1 as [B1 _].
      rewrite H; auto. cbn [cbind]. rewrite IH; auto. }
    rewrite X. cbn [cbind]. unfold resolve_stacks.
    assert (Y : existsb (fun kv : string * term => is_stack (snd kv)) g = false).
    { clear - B. induction g as [|[r u] g IH]; simpl in *; auto. apply andb_true_iff in B as [B1 B2]. apply andb_true_iff in B1 as [_ B1].
      rewrite IH; auto. destruct u; simpl; auto; discriminate. }
    rewrite Y. reflexivity.
  - rewrite IHt; auto.
Qed.

Lemma put_tame : forall x t u, put x t u -> tame u = true.
Proof.
  intros x. induction t using term_ind'; intros u P; inversion P; subst; simpl; auto.
  - rename H1 into F. apply forallb_forall. intros y I. destruct (Forall2_In_r _ _ _ _ _ y F I) as (z & J & Q). rewrite Forall_forall in H. eapply H; eauto.
  - rename H1 into F. apply forallb_forall. intros y I. destruct (Forall2_In_r _ _ _ _ _ y F I) as (z & J & Q). rewrite Forall_forall in H. eapply H; eauto.
  - erewrite IHt1, IHt2; eauto.
Qed.

Lemma unstacked_fun : forall g a b, unstacked g a -> unstacked g b -> forall x, lookup x a = lookup x b.
Proof.
  assert (H : forall g a b, unstacked g a -> unstacked g b -> forall x t, lookup x a = Some t -> lookup x b = Some t).
  { intros g a b A B x t L.
    assert (LY : forall r ls i, lookup r g = Some (TStack ls) -> i < length ls -> x = level r i -> lookup x b = Some t).
    { intros r ls i R I ->. destruct (nth_error ls i) as [u|] eqn:N; [|apply nth_error_None in N; lia].
      destruct (us_layer _ _ A _ _ _ _ R N) as (u1 & L1 & P1). destruct (us_layer _ _ B _ _ _ _ R N) as (u2 & L2 & P2).
      rewrite L in L1. injection L1 as <-. rewrite L2. f_equal. apply term_resolve_put in P1. apply term_resolve_put in P2. congruence. }
    destruct (us_only _ _ A x) as [G|(r & ls & i & R & I & X)]; [congruence| |eapply LY; eauto; lia].
    destruct (lookup x g) as [u|] eqn:E; [|congruence].
    assert (D : (exists l ls, u = TStack (l :: ls)) \/ forall l ls, u <> TStack (l :: ls)).
    { destruct u as [| | | | | | |ts| | | | | |]; try (right; intros; discriminate). destruct ts; [right; intros; discriminate|eauto]. }
    destruct D as [(l & ls & ->)|D].
    - apply (LY x (l :: ls) 0 E); [simpl; lia|reflexivity].
    - rewrite (us_rule _ _ B _ _ E D). rewrite (us_rule _ _ A _ _ E D) in L. auto. }
  intros g a b A B x. destruct (lookup x a) eqn:L; [symmetry; eapply H; eauto|].
  destruct (lookup x b) eqn:M; auto. rewrite (H _ _ _ B A _ _ M) in L. discriminate.
Qed.

Lemma unstacked_tame : forall g g2, unstacked g g2 -> (forall r t, lookup r g = Some t -> tame t = true) ->
  forall r t, lookup r g2 = Some t -> tame t = true.
Proof.
  intros g g2 U T x t L.
  assert (LY : forall r ls i, lookup r g = Some (TStack ls) -> i < length ls -> x = level r i -> tame t = true).
  { intros r ls i R I ->. destruct (nth_error ls i) as [u|] eqn:N; [|apply nth_error_None in N; lia].
    destruct (us_layer _ _ U _ _ _ _ R N) as (u1 & L1 & P1). rewrite L in L1. injection L1 as <-. eapply put_tame; eauto. }
  destruct (us_only _ _ U x) as [G|(r & ls & i & R & I & X)]; [congruence| |eapply LY; eauto; lia].
  destruct (lookup x g) as [u|] eqn:E; [|congruence].
  assert (D : (exists l ls, u = TStack (l :: ls)) \/ forall l ls, u <> TStack (l :: ls)).
  { destruct u as [| | | | | | |ts| | | | | |]; try (right; intros; discriminate). destruct ts; [right; intros; discriminate|eauto]. }
  destruct D as [(l & ls & ->)|D].
  - apply (LY x (l :: ls) 0 E); [simpl; lia|reflexivity].
  - rewrite (us_rule _ _ U _ _ E D) in L. injection L as <-. eauto.
Qed.

Lemma alias_body_same : forall g g' t u, (forall x, lookup x g = lookup x g') -> alias_body g t u -> alias_body g' t u.
Proof. intros g g' t u S A. induction A; [constructor; auto|econstructor; eauto; rewrite <- S; auto]. Qed.

Lemma compile_resolved_iff : forall E g, NoDup (keys g) -> (forall r t, lookup r g = Some t -> tame t = true) ->
  (exists rules, compile_resolved E g = COk rules) <-> compiles_grammar E g.
Proof.
  intros E g N T. unfold compile_resolved.
  assert (X : ctraverse (fun kv : string * term => cbind (prep (snd kv)) (fun u => COk (fst kv, u))) g = COk g).
  { assert (Q : forall r t, In (r, t) g -> tame t = true) by (intros r t I; apply (T r); apply In_lookup; auto). clear - Q.
    induction g as [|[r u] g IH]; simpl in *; auto. rewrite tame_prep; eauto. cbn [cbind]. rewrite IH; eauto. }
  rewrite X. cbn [cbind]. fold (rule_fns E (lookup WrapRE g) g).
  rewrite (rules_compile E (lookup WrapRE g) g) by (intros; apply term_compiles).
  unfold compiles_grammar. change ".wrapRE"%string with WrapRE. rewrite Forall_forall. split.
  - intros H r t L. apply (H (r, t)). apply lookup_In in L. auto.
  - intros H [r t] I. apply (H r t). apply In_lookup; auto.
Qed.

Theorem compile_iff : forall E g, NoDup (keys g) -> clear_names g -> (forall r t, lookup r g = Some t -> tame t = true) ->
  (exists ps, compile E g = COk ps) <-> exists g2, unstacked g g2 /\ compiles_grammar E g2.
Proof.
  intros E g N C T. split.
  - intros (ps & H). unfold compile in H. apply cbind_ok in H as (g1 & R & H). apply cbind_ok in H as (rules & H & _).
    destruct (resolve_stacks_spec _ _ N C R) as (U & N1 & _). exists g1. split; auto.
    apply compile_resolved_iff; auto. eapply unstacked_tame; eauto. eauto.
  - intros (g2 & U & CG).
    assert (R : exists g1, resolve_stacks g = COk g1).
    { unfold resolve_stacks. destruct (existsb _ g); [|eauto]. apply loop_ok. intros r ls i t I NE.
      destruct (us_layer _ _ U r ls i t) as (u & _ & P); [apply In_lookup; auto|auto|eauto]. }
    destruct R as (g1 & R). destruct (resolve_stacks_spec _ _ N C R) as (U1 & N1 & _).
    pose proof (unstacked_fun _ _ _ U1 U) as S.
    assert (C1 : compiles_grammar E g1).
    { intros r t L. rewrite S in L. destruct (CG _ _ L) as (u & A & B). exists u. split; [eapply alias_body_same; [|eauto]; auto|]. rewrite S. auto. }
    apply compile_resolved_iff in C1 as (rules & H); auto; [|eapply unstacked_tame; eauto].
    unfold compile. rewrite R. cbn [cbind]. rewrite H. cbn [cbind]. eauto.
Qed.

(** Checking the conditions by computing. *)
Lemma compiles_check : forall E g, same_map g g -> forallb (fun kv : string * term => tame (snd kv)) g = true ->
  (exists ps, compile E g = COk ps) ->
  NoDup (keys g) /\ clear_names g /\ (forall r t, lookup r g = Some t -> tame t = true) /\ exists g2, unstacked g g2 /\ compiles_grammar E g2.
Proof.
  intros E g S T C. assert (NC : NoDup (keys g) /\ clear_names g) by (inversion S; auto). destruct NC as [N CL].
  assert (T' : forall r t, lookup r g = Some t -> tame t = true).
  { intros r t L. apply lookup_In in L. rewrite forallb_forall in T. apply (T _ L). }
  repeat split; auto. apply compile_iff; auto.
Qed.
