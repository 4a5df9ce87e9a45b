(** Facts about compilation: what the compiled parsers are, rule tables, wrapping. *)
From Verif Require Import Base Scanner Syntax Engine Resolve Compile Parse PegSpec.

Lemma cbind_ok : forall {A B} (m : cres A) (f : A -> cres B) b,
  cbind m f = COk b -> exists a, m = COk a /\ f a = COk b.
Proof. intros A B [a| |] f b H; simpl in H; try discriminate; eauto. Qed.

Lemma ctraverse_ok : forall {A B} (f : A -> cres B) l ys,
  ctraverse f l = COk ys <-> Forall2 (fun x y => f x = COk y) l ys.
Proof.
  intros A B f. induction l as [|x l IH]; intros ys; simpl.
  - split; intros H; inversion H; subst; auto.
  - split; intros H.
    + apply cbind_ok in H as (y & Hy & H). apply cbind_ok in H as (ys' & Hys & H).
      inversion H; subst. constructor; auto. apply IH; auto.
    + inversion H as [|? y ? ys' Hy Hys]; subst. rewrite Hy. simpl.
      apply IH in Hys. rewrite Hys. auto.
Qed.

Lemma label_ident : forall t, ident_from_term t = label t.
Proof. induction t using term_ind'; simpl; auto; try rewrite IHt; auto. Qed.

Lemma tag_or_alt : forall r a, rule_or_alt r a = tag_or r a.
Proof. auto. Qed.

Lemma with_val_bind : forall sc n v, with_val sc n v = mkScope (bind (svals sc) n v) (scut sc).
Proof. intros [vs c] n v. unfold with_val, bind; simpl. destruct (String.eqb n ""); auto. Qed.

(** * Rule tables *)

Definition rule_fns (E : engine) (wrap : option term) (g : grammar) :=
  map (fun kv => (fst kv, (snd kv, term_parser E (snd kv) wrap))) g.

Lemma lookup_rule_fns : forall E wrap g r,
  lookup r (rule_fns E wrap g) = option_map (fun t => (t, term_parser E t wrap)) (lookup r g).
Proof.
  intros E wrap g r. unfold rule_fns. induction g as [|[k t] g IH]; simpl; auto.
  destruct (String.eqb r k); auto.
Qed.

Lemma chase_ok : forall E wrap g n t f',
  chase n (rule_fns E wrap g) t (term_parser E t wrap) = COk f' ->
  exists t', alias_body g t t' /\ f' = term_parser E t' wrap.
Proof.
  intros E wrap g. induction n as [|n IH]; intros t f' H; destruct t; simpl in H; try discriminate;
    try (inversion H; subst; eexists; split; [apply ab_end; discriminate|reflexivity]; fail).
  rewrite lookup_rule_fns in H. destruct (lookup r g) as [u|] eqn:E1; simpl in H; [|discriminate].
  destruct (IH _ _ H) as (t' & A & B). exists t'; split; auto. eapply ab_step; eauto.
Qed.

Lemma alias_body_not_rule : forall g t t', alias_body g t t' -> forall r, t' <> TRule r.
Proof. induction 1; auto. Qed.

Lemma alias_body_fun : forall g t t1, alias_body g t t1 -> forall t2, alias_body g t t2 -> t1 = t2.
Proof.
  induction 1 as [t N|r t t' L A IH]; intros t2 H2; inversion H2; subst; auto.
  - exfalso; eapply N; eauto.
  - exfalso; eapply H; eauto.
  - apply IH. congruence.
Qed.

Lemma rule_body_fun : forall gs r g1 t1, rule_body gs r g1 t1 ->
  forall g2 t2, rule_body gs r g2 t2 -> g1 = g2 /\ t1 = t2.
Proof.
  induction 1; intros g2 t2 H2; inversion H2; subst; try congruence; auto.
  split; auto. eapply alias_body_fun; eauto. congruence.
Qed.

Lemma alias_body_in : forall (P : term -> Prop) g t t', alias_body g t t' ->
  P t -> (forall r u, lookup r g = Some u -> P u) -> P t'.
Proof. induction 1; eauto. Qed.

Lemma compile_rules_keys : forall E wrap g rules,
  compile_rules (rule_fns E wrap g) = COk rules -> map fst rules = map fst g.
Proof.
  intros E wrap g rules H. unfold compile_rules in H. apply ctraverse_ok in H.
  remember (length (rule_fns E wrap g)) as n eqn:Hn. clear Hn.
  remember (rule_fns E wrap g) as all eqn:Ha. 
  assert (G : forall l rs, Forall2 (fun (x : string * (term * (string -> cres parser))) y =>
     (let '(r, (t, f)) := x in cbind (chase (S n) all t f) (fun f' => cbind (f' r) (fun p => COk (r, p)))) = COk y)
     (rule_fns E wrap l) rs -> map fst rs = map fst l).
  { clear. induction l as [|[k t] l IH]; intros rs H; inversion H as [|? y ? ys Hy Hl]; subst; auto.
    simpl. f_equal; auto. apply cbind_ok in Hy as (f' & _ & Hy). apply cbind_ok in Hy as (p & _ & Hy).
    inversion Hy; auto. }
  apply (G g). rewrite <- Ha. exact H.
Qed.

Lemma compile_rules_lookup : forall E wrap g rules r,
  compile_rules (rule_fns E wrap g) = COk rules ->
  match lookup r rules with
  | Some q => exists t t', lookup r g = Some t /\ alias_body g t t' /\ term_parser E t' wrap r = COk q
  | None => lookup r g = None
  end.
Proof.
  intros E wrap g rules r H. unfold compile_rules in H. apply ctraverse_ok in H.
  remember (length (rule_fns E wrap g)) as n eqn:Hn. clear Hn.
  assert (G : forall l rs, Forall2 (fun (x : string * (term * (string -> cres parser))) y =>
     (let '(r, (t, f)) := x in cbind (chase (S n) (rule_fns E wrap g) t f) (fun f' => cbind (f' r) (fun p => COk (r, p)))) = COk y)
     (rule_fns E wrap l) rs ->
     match lookup r rs with
     | Some q => exists t t', lookup r l = Some t /\ alias_body g t t' /\ term_parser E t' wrap r = COk q
     | None => lookup r l = None
     end).
  { clear. induction l as [|[k t] l IH]; intros rs H; inversion H as [|? y ? ys Hy Hl]; subst; [reflexivity|].
    apply cbind_ok in Hy as (f' & Hc & Hy). apply cbind_ok in Hy as (p & Hp & Hy).
    inversion Hy; subst; simpl. destruct (String.eqb r k) eqn:E1; [|apply IH; auto].
    apply String.eqb_eq in E1; subst k.
    destruct (chase_ok _ _ _ _ _ _ Hc) as (t' & A & B). subst f'. eauto. }
  apply G. exact H.
Qed.

(** * Wrapping *)

Lemma replace_hole_cons2 : forall c d w x, replace_hole (c :: d :: w) x =
  if (Ascii.eqb c "(" && Ascii.eqb d ")")%char then x ++ w else c :: replace_hole (d :: w) x.
Proof. reflexivity. Qed.

Lemma replace_hole_fills : forall w x, fills w x (replace_hole w x).
Proof.
  intros w x.
  assert (G : forall w,
    (exists a b, w = a ++ hole ++ b /\ replace_hole w x = a ++ x ++ b /\
       forall a' b', w = a' ++ hole ++ b' -> (length a <= length a')%nat) \/
    ((forall a b, w <> a ++ hole ++ b) /\ replace_hole w x = w)).
  { clear w. intros w. induction w as [|c w IH].
    - right. split; auto. intros [|? a] b; discriminate.
    - destruct w as [|d w].
      + right. split; auto. intros [|? [|? a]] b; discriminate.
      + rewrite replace_hole_cons2.
        destruct (Ascii.eqb c "(" && Ascii.eqb d ")")%char eqn:E.
        * apply andb_true_iff in E as [E1 E2].
          apply Ascii.eqb_eq in E1. apply Ascii.eqb_eq in E2. subst.
          left. exists [], w. split; auto. split; auto. intros; simpl; lia.
        * assert (N : forall b, c :: d :: w <> hole ++ b).
          { intros b H. inversion H; subst. simpl in E. discriminate. }
          destruct IH as [(a & b & E1 & E2 & E3)|[N2 E2]].
          -- left. exists (c :: a), b. rewrite E1 at 1. split; auto.
             split; [rewrite E2; auto|].
             intros [|e a'] b' H; [exfalso; eapply N; exact H|].
             inversion H; subst. simpl. apply le_n_S. eapply E3; exact H2.
          -- right. split; [|rewrite E2; auto].
             intros [|e a] b H; [eapply N; exact H|]. inversion H; subst. eapply N2; exact H2. }
  apply G.
Qed.

Lemma fills_fun : forall w x o1 o2, fills w x o1 -> fills w x o2 -> o1 = o2.
Proof.
  intros w x o1 o2 [(a & b & E & O & M)|[N O]] [(a' & b' & E' & O' & M')|[N' O']]; subst o1 o2; auto.
  - assert (length a = length a') as L.
    { pose proof (M _ _ E'). pose proof (M' _ _ E). lia. }
    rewrite E in E'. apply app_inj_len in E' as [-> E']; auto.
    apply app_inv_head in E'. subst; auto.
  - exfalso. eapply N'; eauto.
  - exfalso. eapply N; eauto.
Qed.

Lemma exempt_iff : forall x others, existsb (exempt x) others = true <-> In (TS x) others \/ In (TRE x) others.
Proof.
  intros x others. rewrite existsb_exists. split.
  - intros (t & I & H). destruct t; simpl in H; try discriminate; apply beqb_eq in H; subst; auto.
  - intros [I|I]; [exists (TS x)|exists (TRE x)]; split; auto; simpl; apply beqb_refl.
Qed.

Lemma apply_wrap_spec : forall wrap x pre pat,
  apply_wrap wrap x pre = COk pat <-> token_pattern wrap x pre pat.
Proof.
  assert (W : forall w pre pat, wrap_with w pre = COk pat <->
     exists w', w = TRE w' /\ fills w' (bs "(?:" ++ pre ++ bs ")") pat).
  { intros w pre pat. split.
    - destruct w; simpl; try discriminate. intros H.
      assert (pat = replace_hole s ("("%char :: "?"%char :: ":"%char :: pre ++ [")"%char])) by congruence.
      subst. exists s. split; auto. apply replace_hole_fills.
    - intros (w' & -> & F). unfold wrap_with. f_equal. eapply fills_fun; eauto. apply replace_hole_fills. }
  intros wrap x pre pat. destruct wrap as [w|]; simpl; [|split; congruence].
  destruct w; try (split; [intros H; apply W in H as (w' & E & _); discriminate|tauto]).
  - rewrite (W (TRE s)). split.
    + intros (w' & E & F). inversion E; subst; auto.
    + intros F. exists s; auto.
  - destruct (rev ts) as [|l others] eqn:R.
    + split; [discriminate|]. intros (o & w & E & _). subst. rewrite rev_app_distr in R. discriminate.
    + assert (T : ts = rev others ++ [l]).
      { rewrite <- (rev_involutive ts), R. reflexivity. }
      split.
      * intros H. exists (rev others), l. split; auto.
        destruct (existsb (exempt x) (rev others)) eqn:X.
        -- left. split; [apply exempt_iff; auto|congruence].
        -- right. split; [rewrite <- exempt_iff; congruence|apply W; auto].
      * intros (o & w & E & H). subst ts. apply app_inj_tail in E as [-> ->].
        destruct H as [[I ->]|[I H]].
        -- apply exempt_iff in I. rewrite I. auto.
        -- destruct (existsb (exempt x) o) eqn:X; [apply exempt_iff in X; tauto|]. apply W; auto.
Qed.

(** * Shape of compiled parsers *)

Definition is_prule (p : parser) : bool := match p with PRule _ _ => true | _ => false end.

Lemma term_parser_not_link : forall E t wrap rule p, term_parser E t wrap rule = COk p ->
  match p with PLink _ => False | _ => True end.
Proof.
  intros E t. induction t using term_ind'; intros wrap rule p H0; simpl in H0;
    try (inversion H0; subst; exact I);
    repeat match goal with
           | H : cbind _ _ = COk _ |- _ => apply cbind_ok in H as (? & ? & ?)
           | H : COk _ = COk _ |- _ => inversion H; subst; clear H; try exact I
           end.
  - eapply IHt; eauto.
  - unfold scoped_result. specialize (IHt _ _ _ H1).
    destruct x0; auto. fold (rule_fns E (match lookup WrapRE g with Some w => Some w | None => wrap end) g) in H0.
    pose proof (compile_rules_lookup _ _ _ _ t0 H0) as L.
    destruct (lookup t0 x) as [q|]; auto. destruct q; auto.
Qed.

(** A term that does not end in a bare rule does not compile to a placeholder. *)
Lemma headrule_false : forall E t wrap rule p, term_parser E t wrap rule = COk p ->
  headrule t = false -> is_prule p = false.
Proof.
  intros E t. induction t using term_ind'; intros wrap rule p H0 HH; simpl in H0, HH; try discriminate;
    try (inversion H0; subst; reflexivity);
    repeat match goal with
           | H : cbind _ _ = COk _ |- _ => apply cbind_ok in H as (? & ? & ?)
           | H : COk _ = COk _ |- _ => inversion H; subst; clear H; try reflexivity
           end.
  - eapply IHt; eauto.
  - specialize (IHt _ _ _ H1 HH). destruct x0; auto; discriminate.
Qed.

(** * Environments *)

Definition nested_ok (g : grammar) : Prop :=
  forall r u, lookup r g = Some u -> is_alias u = true \/ headrule u = false.

(** The rule tables of an environment are compiled from the grammars in scope. *)
Inductive env_ok (E : engine) : env -> grammars -> Prop :=
| eo_nil : env_ok E [] []
| eo_cons : forall rules e g gs, env_ok E e gs ->
    compile_rules (rule_fns E (wrap_of (g :: gs)) g) = COk rules ->
    (forall r u, lookup r g = Some u -> plain u = true) ->
    env_ok E (rules :: e) (g :: gs).

Definition comp (E : engine) (gs : grammars) (rule : string) (t : term) (p : parser) : Prop :=
  term_parser E t (wrap_of gs) rule = COk p.

Lemma resolve_link_body : forall E e gs r, env_ok E e gs ->
  match resolve_link e r with
  | Some (q, e') => exists gs' t', rule_body gs r gs' t' /\ env_ok E e' gs' /\ comp E gs' r t' q /\ plain t' = true
  | None => forall gs' t', ~ rule_body gs r gs' t'
  end.
Proof.
  intros E e gs r H. induction H as [|rules e g gs He IH Hc Hp]; simpl.
  - intros gs' t' B. inversion B.
  - pose proof (compile_rules_lookup _ _ _ _ r Hc) as L.
    destruct (lookup r rules) as [q|].
    + destruct L as (t & t' & L1 & L2 & L3). exists (g :: gs), t'.
      split; [eapply rb_here; eauto|]. split; [constructor; auto|]. split; auto.
      eapply (alias_body_in (fun z => plain z = true)); eauto.
    + destruct (resolve_link e r) as [[q e']|].
      * destruct IH as (gs' & t' & B1 & B2 & B3). exists gs', t'. split; auto. apply rb_outer; auto.
      * intros gs' t' B. inversion B; subst; [congruence|]. eapply IH; eauto.
Qed.

Lemma plain_scoped : forall t g, plain (TScoped t g) = true ->
  plain t = true /\ (forall r u, lookup r g = Some u -> plain u = true) /\ nested_ok g.
Proof.
  intros t g H. simpl in H. apply andb_true_iff in H as [H1 H2]. split; auto.
  rewrite forallb_forall in H2. split.
  - intros r u L. apply lookup_In in L. apply H2 in L. simpl in L. apply andb_true_iff in L as [L _]; auto.
  - intros r u L. apply lookup_In in L. apply H2 in L. simpl in L. apply andb_true_iff in L as [_ L].
    apply orb_true_iff in L as [L|L]; auto. right. apply negb_true_iff in L; auto.
Qed.

(** In a nested grammar no rule compiles to a placeholder. *)
Lemma nested_not_prule : forall E wrap g rules r q,
  compile_rules (rule_fns E wrap g) = COk rules -> nested_ok g ->
  lookup r rules = Some q -> is_prule q = false.
Proof.
  intros E wrap g rules r q Hc Hn L.
  pose proof (compile_rules_lookup _ _ _ _ r Hc) as H. rewrite L in H.
  destruct H as (t & t' & H1 & H2 & H3).
  eapply headrule_false; eauto.
  assert (is_alias t' = true \/ headrule t' = false) as [A|A]; auto.
  { eapply (alias_body_in (fun u => is_alias u = true \/ headrule u = false)); eauto. }
  destruct t'; try discriminate. exfalso. eapply alias_body_not_rule; eauto.
Qed.

Lemma commits_scoped : forall gs t g, commits gs (TScoped t g) <-> commits (g :: gs) t.
Proof. intros. split; intros C; [inversion C; auto|constructor; auto]. Qed.
Lemma commits_named : forall gs n t, commits gs (TNamed n t) <-> commits gs t.
Proof. intros. split; intros C; [inversion C; auto|constructor; auto]. Qed.
Lemma commits_rule : forall gs r, commits gs (TRule r) <-> exists gs' t, rule_body gs r gs' t /\ commits gs' t.
Proof. intros. split; [intros C; inversion C; eauto|intros (gs' & t & A & B); eapply cm_rule; eauto]. Qed.

(** A placeholder stands for its rule. *)
Lemma prule_means : forall E t gs rule n x, comp E gs rule t (PRule n x) -> plain t = true ->
  (forall vs s o, peg E gs vs "" (TRule x) s o -> peg E gs vs rule t s o) /\
  (commits gs t <-> commits gs (TRule x)).
Proof.
  intros E t. unfold comp. induction t using term_ind'; intros gs rule n0 x H0 HP; simpl in H0;
    repeat match goal with
           | H : cbind _ _ = COk _ |- _ => apply cbind_ok in H as (? & ? & ?)
           | H : COk _ = COk _ |- _ => inversion H; subst; clear H
           end; try discriminate.
  - split; [|tauto]. intros vs s o P. inversion P; subst. eapply P_rule; eauto.
  - simpl in HP. destruct (IHt _ _ _ _ H0 HP) as (A & B). split.
    + intros. apply P_named. apply A; auto.
    + split; intros C.
      * inversion C; subst. apply B; auto.
      * constructor. apply B; auto.
  - destruct (plain_scoped _ _ HP) as (HP1 & HP2 & HN).
    change (compile_rules (rule_fns E (wrap_of (g :: gs)) g) = COk x0) in H0.
    change (term_parser E t (wrap_of (g :: gs)) rule = COk x1) in H1.
    rename H4 into H3. unfold scoped_result in H3. destruct x1; try discriminate.
    pose proof (compile_rules_lookup _ _ _ _ t0 H0) as L.
    destruct (lookup t0 x0) as [q|] eqn:Lq.
    + pose proof (nested_not_prule _ _ _ _ _ _ H0 HN Lq). destruct q; discriminate.
    + inversion H3; subst. destruct (IHt _ _ _ _ H1 HP1) as (A & B). split.
      * intros vs s o P. inversion P; subst. apply P_scoped. apply A.
        eapply P_rule; [|eauto]. apply rb_outer; auto.
      * rewrite commits_scoped, B, !commits_rule. split; intros (gs' & u & R & C); exists gs', u; split; auto.
        -- inversion R; subst; auto; congruence.
        -- apply rb_outer; auto.
Qed.

(** Cut points of compiled parsers. *)
Lemma is_cut0_commits : forall E t gs rule q, comp E gs rule t q -> plain t = true ->
  is_prule q = false -> (is_cut0 q = true <-> commits gs t).
Proof.
  intros E t. unfold comp. induction t using term_ind'; intros gs rule q H0 HP HQ; simpl in H0;
    repeat match goal with
           | H : cbind _ _ = COk _ |- _ => apply cbind_ok in H as (? & ? & ?)
           | H : COk _ = COk _ |- _ => inversion H; subst; clear H
           end; try discriminate;
    try (split; [discriminate|intros C; inversion C]; fail).
  - simpl in HP. rewrite (IHt _ _ _ H0 HP HQ). split; intros C; [constructor; auto|inversion C; auto].
  - destruct (plain_scoped _ _ HP) as (HP1 & HP2 & HN).
    change (compile_rules (rule_fns E (wrap_of (g :: gs)) g) = COk x) in H0.
    change (term_parser E t (wrap_of (g :: gs)) rule = COk x0) in H1.
    rewrite commits_scoped. unfold scoped_result in *. destruct (is_prule x0) eqn:Ex.
    + destruct x0; try discriminate.
      pose proof (compile_rules_lookup _ _ _ _ t0 H0) as L.
      destruct (lookup t0 x) as [q|] eqn:Lq.
      * pose proof (nested_not_prule _ _ _ _ _ _ H0 HN Lq) as NP.
        destruct L as (u & u' & L1 & L2 & L3).
        assert (R : is_cut0 q = true <-> commits (g :: gs) u').
        { assert (Hu : exists r', In (r', u') g).
          { clear -L1 L2. assert (forall u u', alias_body g u u' -> (exists r', In (r', u) g) -> exists r', In (r', u') g) as G.
            { induction 1; auto. intros _. apply IHalias_body. apply lookup_In in H. eauto. }
            apply (G _ _ L2). apply lookup_In in L1. eauto. }
          destruct Hu as (r' & Hu). rewrite Forall_forall in H. specialize (H _ Hu). simpl in H.
          apply (H (g :: gs) t0 q L3); auto. eapply (alias_body_in (fun z => plain z = true)); eauto. }
        destruct (prule_means _ _ _ _ _ _ H1 HP1) as (_ & B). rewrite B.
        assert (R2 : commits (g :: gs) (TRule t0) <-> commits (g :: gs) u').
        { assert (RB : rule_body (g :: gs) t0 (g :: gs) u') by (eapply rb_here; eauto).
          rewrite commits_rule. split; [intros (gs' & u2 & RB2 & C)|intros C; eauto].
          destruct (rule_body_fun _ _ _ _ RB _ _ RB2); subst; auto. }
        rewrite R2, <- R. destruct q; simpl; tauto.
      * discriminate.
    + pose proof (IHt _ _ _ H1 HP1 Ex) as R. rewrite <- R. destruct x0; simpl; try tauto; discriminate.
  - split; auto. intros _. constructor.
Qed.
