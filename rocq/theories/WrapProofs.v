(** Proofs for C81: what compiling leaves behind. *)
From Verif Require Import Base Scanner Syntax Engine Resolve Compile Parse CompileProofs StackSpec StackProofs Boot BootProofs FillProofs WrapSpec.
Local Open Scope nat_scope.

Definition under (w : option term) (g : grammar) : option term := match lookup WrapRE g with Some x => Some x | None => w end.

Lemma si_inner : forall w t g w' h, stands_in (under w g) t w' h -> stands_in w (TScoped t g) w' h.
Proof. intros w t g w' h. unfold under. destruct (lookup WrapRE g) eqn:L; intros H; [eapply si_term|eapply si_term_out]; eauto. Qed.
Lemma si_inner_rule : forall w t r u g w' h, In (r, u) g -> stands_in (under w g) u w' h -> stands_in w (TScoped t g) w' h.
Proof. intros w t r u g w' h I. unfold under. destruct (lookup WrapRE g) eqn:L; intros H; [eapply si_rule|eapply si_rule_out]; eauto. Qed.
Lemma si_scoped_inv : forall w t g w' h, stands_in w (TScoped t g) w' h ->
  (w' = w /\ h = g) \/ stands_in (under w g) t w' h \/ exists r u, In (r, u) g /\ stands_in (under w g) u w' h.
Proof. intros w t g w' h H. unfold under. inversion H; subst; auto; match goal with L : lookup WrapRE g = _ |- _ => rewrite L end; eauto 6. Qed.

Lemma stack_term_b : forall g, existsb (fun kv : string * term => is_stack_term (snd kv)) g = true <-> has_stack g.
Proof.
  intros g. rewrite existsb_exists. split.
  - intros ((r & t) & I & S). destruct t as [| | | | | | |ls| | | | | |]; try discriminate. exists r, ls. auto.
  - intros (r & ls & I). exists (r, TStack ls). auto.
Qed.

Definition quiet (w : option term) (t : term) : Prop :=
  forall w' h, stands_in w t w' h -> lookup WrapRE h = None -> w' = None \/ has_stack h.

Lemma map_id_iff : forall A (f : A -> A) l, map f l = l <-> Forall (fun x => f x = x) l.
Proof.
  intros A f l. induction l as [|x l IH]; simpl; split; intros H; auto.
  - inversion H as [[H1 H2]]. rewrite H1, H2. constructor; [auto|apply IH; auto].
  - inversion H; subst. apply IH in H3. congruence.
Qed.
Lemma map_rules_id : forall (f : term -> term) (g : grammar), map (fun kv => (fst kv, f (snd kv))) g = g <-> Forall (fun kv => f (snd kv) = snd kv) g.
Proof.
  intros f g. rewrite map_id_iff. rewrite !Forall_forall. split; intros H [r t] I; specialize (H _ I); simpl in *; congruence.
Qed.
Lemma aset_longer : forall A k (v : A) l, lookup k l = None -> length (aset k v l) = Datatypes.S (length l).
Proof. intros A k v l. induction l as [|[a b] l IH]; simpl; auto. destruct (String.eqb k a); [discriminate|]. intros. simpl. auto. Qed.
Lemma lookup_written : forall (f : term -> term) r (g : grammar), lookup r (map (fun kv => (fst kv, f (snd kv))) g) = match lookup r g with Some t => Some (f t) | None => None end.
Proof. intros f r g. induction g as [|[a t] g IH]; simpl; auto. destruct (String.eqb r a); auto. Qed.

Lemma write_quiet : forall t w, write_wrap w t = t <-> quiet w t.
Proof.
  assert (L : forall ts, Forall (fun t => forall w, write_wrap w t = t <-> quiet w t) ts -> forall w, map (write_wrap w) ts = ts <-> (forall t, In t ts -> quiet w t)).
  { intros ts F w. rewrite map_id_iff. rewrite !Forall_forall in *. split; intros H t I; specialize (H t I); apply F; auto. }
  induction t using term_ind'; intros w; cbn [write_wrap]; try (split; [intros _ w' h X; inversion X|auto]; fail).
  - split.
    + intros E. inversion E as [E2]. rewrite E2. rewrite L in E2 by auto. intros w' h X. inversion X; subst. eapply E2; eauto.
    + intros Q. f_equal. apply L; auto. intros t I w' h X. apply Q. econstructor; eauto.
  - split.
    + intros E. inversion E as [E2]. rewrite E2. rewrite L in E2 by auto. intros w' h X. inversion X; subst. eapply E2; eauto.
    + intros Q. f_equal. apply L; auto. intros t I w' h X. apply Q. econstructor; eauto.
  - split.
    + intros E. inversion E as [[E1 E2]]. rewrite E1, E2. apply IHt1 in E1. apply IHt2 in E2. intros w' h X. inversion X; subst; eauto.
    + intros Q. f_equal; [apply IHt1|apply IHt2]; intros w' h X; apply Q; [apply si_delim|apply si_sep]; auto.
  - split.
    + intros E. inversion E as [E1]. rewrite E1. apply IHt in E1. intros w' h X. inversion X; subst; eauto.
    + intros Q. f_equal. apply IHt. intros w' h X; apply Q; constructor; auto.
  - split.
    + intros E. inversion E as [E1]. rewrite E1. apply IHt in E1. intros w' h X. inversion X; subst; eauto.
    + intros Q. f_equal. apply IHt. intros w' h X; apply Q; constructor; auto.
  - split.
    + intros E. inversion E as [E1]. rewrite E1. apply IHt in E1. intros w' h X. inversion X; subst; eauto.
    + intros Q. f_equal. apply IHt. intros w' h X; apply Q; constructor; auto.
  - cbv zeta. fold (under w g). set (g' := map _ g).
    assert (G : g' = g <-> forall r u, In (r, u) g -> quiet (under w g) u).
    { unfold g'. rewrite map_rules_id. rewrite !Forall_forall in *. split.
      - intros E r u I. apply (H _ I). apply (E _ I).
      - intros Q [r u] I. apply (H _ I). eapply Q; eauto. }
    assert (LEN : length g' = length g) by (unfold g'; apply map_length).
    assert (LK : lookup WrapRE g = None -> lookup WrapRE g' = None) by (intros LN; unfold g'; rewrite lookup_written, LN; auto).
    split.
    + intros E.
      assert (X : write_wrap (under w g) t = t /\ g' = g /\ (lookup WrapRE g = None -> w = None \/ has_stack g)).
      { injection E as E1 E2. split; [exact E1|]. destruct (lookup WrapRE g) as [x|] eqn:LW; [rewrite E2; split; auto; discriminate|].
        destruct w as [x|]; [|rewrite E2; auto]. destruct (existsb (fun kv : string * term => is_stack_term (snd kv)) g) eqn:S.
        - apply stack_term_b in S. rewrite E2. auto.
        - exfalso. apply (f_equal (@length _)) in E2. rewrite aset_longer in E2 by auto. lia. }
      destruct X as (X1 & X2 & X3). apply IHt in X1. pose proof (proj1 G X2) as G1. clear E G LEN LK. intros w' h Y LN.
      apply si_scoped_inv in Y as [[-> ->]|[Y|(r & u & I & Y)]]; eauto. eapply G1; eauto.
    + intros Q.
      assert (X1 : write_wrap (under w g) t = t) by (apply IHt; intros w' h X; apply Q; apply si_inner; auto).
      assert (X2 : g' = g) by (apply G; intros r u I w' h X; apply Q; eapply si_inner_rule; eauto).
      rewrite X1, X2. f_equal. destruct (lookup WrapRE g) eqn:LW; auto. destruct w as [x|]; auto.
      destruct (Q (Some x) g (si_here _ _ _) LW) as [|S]; [discriminate|]. apply stack_term_b in S. rewrite S. auto.
  - split.
    + intros E. inversion E as [E1]. rewrite E1. apply IHt in E1. intros w' h X. inversion X; subst; eauto.
    + intros Q. f_equal. apply IHt. intros w' h X; apply Q; constructor; auto.
Qed.

(** * The whole grammar *)

Theorem left_same : forall g g1, resolve_stacks g = COk g1 ->
  (left_behind g = COk g <->
   forall r t w h, In (r, t) g -> stands_in (lookup WrapRE g1) t w h -> lookup WrapRE h = None -> w = None \/ has_stack h).
Proof.
  intros g g1 R. unfold left_behind. rewrite R. cbn [cbind]. split.
  - intros E. inversion E as [E1]. rewrite E1. rewrite map_rules_id, Forall_forall in E1. intros r t w h I. apply (proj1 (write_quiet _ _) (E1 _ I)).
  - intros Q. f_equal. rewrite map_rules_id, Forall_forall. intros [r t] I. apply write_quiet. intros w' h. eauto.
Qed.

Lemma adel_aset : forall A k (v : A) l, adel k (aset k v l) = adel k l.
Proof.
  intros A k v l. induction l as [|[a b] l IH]; simpl; [rewrite String.eqb_refl; auto|].
  destruct (String.eqb k a) eqn:E; simpl; [rewrite String.eqb_refl; auto|rewrite E, IH; auto].
Qed.
Lemma map_aset : forall (f : term -> term) k v (g : grammar), map (fun kv => (fst kv, f (snd kv))) (aset k v g) = aset k (f v) (map (fun kv => (fst kv, f (snd kv))) g).
Proof. intros f k v g. induction g as [|[a b] g IH]; simpl; auto. destruct (String.eqb k a); simpl; congruence. Qed.

Lemma write_bare : forall t w, bare_of (write_wrap w t) = bare_of t.
Proof.
  induction t using term_ind'; intros w; cbn [write_wrap bare_of]; try congruence.
  - f_equal. rewrite map_map. apply map_ext_in. rewrite Forall_forall in H. auto.
  - f_equal. rewrite map_map. apply map_ext_in. rewrite Forall_forall in H. auto.
  - cbv zeta. rewrite IHt. f_equal.
    assert (G : map (fun kv => (fst kv, bare_of (snd kv))) (map (fun kv : string * term => (fst kv, write_wrap (under w g) (snd kv))) g) = map (fun kv => (fst kv, bare_of (snd kv))) g).
    { rewrite map_map. apply map_ext_in. rewrite Forall_forall in H. intros kv I. simpl. rewrite (H _ I). auto. }
    fold (under w g). set (g' := map _ g) in *.
    assert (X : forall x, adel WrapRE (map (fun kv => (fst kv, bare_of (snd kv))) (aset WrapRE x g')) = adel WrapRE (map (fun kv => (fst kv, bare_of (snd kv))) g)).
    { intros x. rewrite map_aset, adel_aset, G. auto. }
    destruct (lookup WrapRE g); [rewrite G; auto|]. destruct w; [|rewrite G; auto]. destruct (existsb _ g); [rewrite G; auto|apply X].
Qed.
Theorem left_bare : forall g g', left_behind g = COk g' -> Forall2 (fun kv kv' => fst kv' = fst kv /\ bare_of (snd kv') = bare_of (snd kv)) g g'.
Proof.
  intros g g' H. unfold left_behind in H. apply cbind_ok in H as (g1 & _ & H). inversion H; subst. clear H. generalize (lookup WrapRE g1). intros w. clear g1.
  induction g as [|[r t] g IH]; simpl; constructor; auto. simpl. split; auto. apply write_bare.
Qed.

(** * What a nested grammar is left with *)

Lemma In_aset : forall A k (v : A) l kv, In kv (aset k v l) -> kv = (k, v) \/ In kv l.
Proof.
  intros A k v l. induction l as [|[a b] l IH]; simpl; intros kv H; [intuition|].
  destruct (String.eqb k a); simpl in H; [intuition|]. destruct H as [H|H]; auto. destruct (IH _ H); auto.
Qed.
Lemma In_aset_keep : forall A k (v : A) l kv, lookup k l = None -> In kv l -> In kv (aset k v l).
Proof.
  intros A k v l. induction l as [|[a b] l IH]; simpl; intros kv L H; [tauto|].
  destruct (String.eqb k a); [discriminate|]. simpl. destruct H; auto.
Qed.

Definition written (w : option term) (g : grammar) : grammar :=
  let g' := map (fun kv => (fst kv, write_wrap (under w g) (snd kv))) g in
  match lookup WrapRE g, w with
  | None, Some x => if existsb (fun kv => is_stack_term (snd kv)) g then g' else aset WrapRE x g'
  | _, _ => g'
  end.
Lemma write_scoped : forall w t g, write_wrap w (TScoped t g) = TScoped (write_wrap (under w g) t) (written w g).
Proof. reflexivity. Qed.
Lemma written_in : forall w g r u, In (r, u) g -> In (r, write_wrap (under w g) u) (written w g).
Proof.
  intros w g r u I. unfold written. set (g' := map _ g).
  assert (I' : In (r, write_wrap (under w g) u) g') by (apply in_map_iff; exists (r, u); auto).
  destruct (lookup WrapRE g) eqn:L; auto. destruct w; auto. destruct (existsb _ g); auto.
  apply In_aset_keep; auto. unfold g'. rewrite lookup_written, L. auto.
Qed.
Lemma written_from : forall w g r u', In (r, u') (written w g) ->
  (exists u, In (r, u) g /\ u' = write_wrap (under w g) u) \/ w = Some u'.
Proof.
  intros w g r u' I. unfold written in I. set (g' := map _ g) in *.
  assert (X : In (r, u') g' -> exists u, In (r, u) g /\ u' = write_wrap (under w g) u).
  { intros J. apply in_map_iff in J as ((r0 & u) & E & J). simpl in E. inversion E; subst. eauto. }
  destruct (lookup WrapRE g); auto. destruct w; auto. destruct (existsb _ g); auto.
  apply In_aset in I as [E|I]; auto. inversion E; auto.
Qed.
Lemma written_lookup : forall w g r, r <> WrapRE -> lookup r (written w g) = option_map (write_wrap (under w g)) (lookup r g).
Proof.
  intros w g r N. unfold written. set (g' := map _ g).
  assert (X : lookup r g' = option_map (write_wrap (under w g)) (lookup r g)).
  { unfold g'. rewrite lookup_written. destruct (lookup r g); auto. }
  destruct (lookup WrapRE g); auto. destruct w; auto. destruct (existsb _ g); auto. rewrite lookup_aset_neq; auto.
Qed.
Lemma written_wrap : forall w g, lookup WrapRE (written w g) =
  match lookup WrapRE g with
  | Some x => Some (write_wrap (Some x) x)
  | None => if existsb (fun kv : string * term => is_stack_term (snd kv)) g then None else w
  end.
Proof.
  intros w g. unfold written, under. destruct (lookup WrapRE g) as [x|] eqn:L.
  - rewrite lookup_written, L. auto.
  - destruct w as [x|]; [|rewrite lookup_written, L; destruct (existsb _ g); auto].
    destruct (existsb _ g); [rewrite lookup_written, L; auto|apply lookup_aset_eq].
Qed.

Lemma written_became : forall w h, became w h (written w h).
Proof.
  intros w h. split.
  - intros r N. rewrite written_lookup by auto. destruct (lookup r h); simpl; auto. now rewrite write_bare.
  - rewrite written_wrap. destruct (lookup WrapRE h) as [x|] eqn:L.
    + eexists. split; [reflexivity|apply write_bare].
    + pose proof (stack_term_b h) as S. destruct (existsb _ h); split; intros H; auto.
      * exfalso. apply H. apply S. auto.
      * apply S in H. discriminate.
Qed.

Lemma write_nested : forall t w w1 h, stands_in w t w1 h -> forall v, exists w2 h', stands_in v (write_wrap w t) w2 h' /\ became w1 h h'.
Proof.
  induction t using term_ind'; intros w w1 h X v; try (inversion X; fail).
  - inversion X; subst. rewrite Forall_forall in H. match goal with I : In ?u ts, S0 : stands_in w ?u _ h |- _ => destruct (H _ I _ _ _ S0 v) as (w2 & h' & S & B) end.
    exists w2, h'. split; auto. cbn [write_wrap]. eapply si_seq; eauto. apply in_map; auto.
  - inversion X; subst. rewrite Forall_forall in H. match goal with I : In ?u ts, S0 : stands_in w ?u _ h |- _ => destruct (H _ I _ _ _ S0 v) as (w2 & h' & S & B) end.
    exists w2, h'. split; auto. cbn [write_wrap]. eapply si_oneof; eauto. apply in_map; auto.
  - inversion X; subst.
    + match goal with S0 : stands_in w t1 _ h |- _ => destruct (IHt1 _ _ _ S0 v) as (w2 & h' & S & B) end. exists w2, h'. split; auto. apply si_delim; auto.
    + match goal with S0 : stands_in w t2 _ h |- _ => destruct (IHt2 _ _ _ S0 v) as (w2 & h' & S & B) end. exists w2, h'. split; auto. apply si_sep; auto.
  - inversion X; subst. match goal with S0 : stands_in w t _ h |- _ => destruct (IHt _ _ _ S0 v) as (w2 & h' & S & B) end. exists w2, h'. split; auto. constructor; auto.
  - inversion X; subst. match goal with S0 : stands_in w t _ h |- _ => destruct (IHt _ _ _ S0 v) as (w2 & h' & S & B) end. exists w2, h'. split; auto. constructor; auto.
  - inversion X; subst. match goal with S0 : stands_in w t _ h |- _ => destruct (IHt _ _ _ S0 v) as (w2 & h' & S & B) end. exists w2, h'. split; auto. constructor; auto.
  - rewrite write_scoped. apply si_scoped_inv in X as [[-> ->]|[X|(r & u & I & X)]].
    + exists v, (written w g). split; [constructor|apply written_became].
    + destruct (IHt _ _ _ X (under v (written w g))) as (w2 & h' & S & B). exists w2, h'. split; auto. apply si_inner; auto.
    + rewrite Forall_forall in H. destruct (H _ I _ _ _ X (under v (written w g))) as (w2 & h' & S & B). exists w2, h'. split; auto.
      eapply si_inner_rule; [apply written_in; eauto|exact S].
  - inversion X; subst. match goal with S0 : stands_in w t _ h |- _ => destruct (IHt _ _ _ S0 v) as (w2 & h' & S & B) end. exists w2, h'. split; auto. constructor; auto.
Qed.

Theorem left_nested : forall g g1 g' r t w h, resolve_stacks g = COk g1 -> left_behind g = COk g' ->
  In (r, t) g -> stands_in (lookup WrapRE g1) t w h -> exists t' w2 h', In (r, t') g' /\ stands_in (lookup WrapRE g1) t' w2 h' /\ became w h h'.
Proof.
  intros g g1 g' r t w h R L I S. unfold left_behind in L. rewrite R in L. inversion L; subst.
  destruct (write_nested _ _ _ _ S (lookup WrapRE g1)) as (w2 & h' & X & B). do 3 eexists. split; [|eauto].
  apply in_map_iff. exists (r, t). auto.
Qed.

(** * Twice *)

Lemma proper_flat : forall x, proper_wrap x -> flat x.
Proof.
  intros x P w w' h X. destruct x; try contradiction; inversion X; subst. simpl in P. rewrite Forall_forall in P.
  match goal with J : In ?u ts, S0 : stands_in _ ?u _ _ |- _ => apply P in J; destruct u; try contradiction; inversion S0 end.
Qed.
Lemma flat_quiet : forall x w, flat x -> quiet w x.
Proof. intros x w F w' h X. destruct (F _ _ _ X). Qed.

Definition tidy_wraps (t : term) : Prop := forall w w' h x, stands_in w t w' h -> In (WrapRE, x) h -> proper_wrap x.
Lemma stands_any : forall t w w' h, stands_in w t w' h -> forall v, exists w2, stands_in v t w2 h.
Proof.
  induction t using term_ind'; intros w w' h X v; try (inversion X; fail).
  - inversion X; subst. rewrite Forall_forall in H. match goal with I : In ?u ts, S0 : stands_in w ?u _ h |- _ => destruct (H _ I _ _ _ S0 v) as (w2 & S) end. exists w2. econstructor; eauto.
  - inversion X; subst. rewrite Forall_forall in H. match goal with I : In ?u ts, S0 : stands_in w ?u _ h |- _ => destruct (H _ I _ _ _ S0 v) as (w2 & S) end. exists w2. econstructor; eauto.
  - inversion X; subst; [match goal with S0 : stands_in w t1 _ h |- _ => destruct (IHt1 _ _ _ S0 v) as (w2 & S) end|match goal with S0 : stands_in w t2 _ h |- _ => destruct (IHt2 _ _ _ S0 v) as (w2 & S) end]; exists w2; [apply si_delim|apply si_sep]; auto.
  - inversion X; subst. match goal with S0 : stands_in w t _ h |- _ => destruct (IHt _ _ _ S0 v) as (w2 & S) end. exists w2. constructor; auto.
  - inversion X; subst. match goal with S0 : stands_in w t _ h |- _ => destruct (IHt _ _ _ S0 v) as (w2 & S) end. exists w2. constructor; auto.
  - inversion X; subst. match goal with S0 : stands_in w t _ h |- _ => destruct (IHt _ _ _ S0 v) as (w2 & S) end. exists w2. constructor; auto.
  - apply si_scoped_inv in X as [[-> ->]|[X|(r & u & I & X)]].
    + exists v. constructor.
    + destruct (IHt _ _ _ X (under v g)) as (w2 & S). exists w2. apply si_inner; auto.
    + rewrite Forall_forall in H. destruct (H _ I _ _ _ X (under v g)) as (w2 & S). exists w2. eapply si_inner_rule; eauto.
  - inversion X; subst. match goal with S0 : stands_in w t _ h |- _ => destruct (IHt _ _ _ S0 v) as (w2 & S) end. exists w2. constructor; auto.
Qed.
Lemma tidy_inner : forall t g, tidy_wraps (TScoped t g) -> tidy_wraps t.
Proof.
  intros t g T w w' h x S I. destruct (stands_any _ _ _ _ S (under w g)) as (w2 & S'). eapply T; [apply si_inner; exact S'|exact I].
Qed.
Lemma tidy_rule : forall t g r u, tidy_wraps (TScoped t g) -> In (r, u) g -> tidy_wraps u.
Proof.
  intros t g r u T J w w' h x S I. destruct (stands_any _ _ _ _ S (under w g)) as (w2 & S'). eapply T; [eapply si_inner_rule; [exact J|exact S']|exact I].
Qed.
Lemma tidy_own : forall t g x, tidy_wraps (TScoped t g) -> lookup WrapRE g = Some x -> proper_wrap x.
Proof. intros t g x T L. eapply (T None); [apply si_here|]. apply lookup_In; eauto. Qed.
Lemma tidy_under : forall t g w, tidy_wraps (TScoped t g) -> (forall x, w = Some x -> proper_wrap x) -> forall x, under w g = Some x -> proper_wrap x.
Proof.
  intros t g w T W x. unfold under. destruct (lookup WrapRE g) eqn:L; intros E; auto. inversion E; subst. eapply tidy_own; eauto.
Qed.
Lemma tidy_seq : forall ts t, tidy_wraps (TSeq ts) -> In t ts -> tidy_wraps t.
Proof. intros ts t T I w w' h x S. apply (T w w'). econstructor; eauto. Qed.
Lemma tidy_oneof : forall ts t, tidy_wraps (TOneof ts) -> In t ts -> tidy_wraps t.
Proof. intros ts t T I w w' h x S. apply (T w w'). econstructor; eauto. Qed.

Lemma written_quiet : forall t w v, tidy_wraps t -> (forall x, w = Some x -> proper_wrap x) -> (w = None -> v = None) -> quiet v (write_wrap w t).
Proof.
  induction t using term_ind'; intros w v T W N w' h X LN; try (inversion X; fail).
  - cbn [write_wrap] in X. inversion X; subst. match goal with J : In _ (map _ ts) |- _ => apply in_map_iff in J as (u & <- & I) end. rewrite Forall_forall in H.
    eapply (H u); eauto. eapply tidy_seq; eauto.
  - cbn [write_wrap] in X. inversion X; subst. match goal with J : In _ (map _ ts) |- _ => apply in_map_iff in J as (u & <- & I) end. rewrite Forall_forall in H.
    eapply (H u); eauto. eapply tidy_oneof; eauto.
  - cbn [write_wrap] in X. inversion X; subst.
    + eapply IHt1; eauto. intros a0 b0 c0 d0 S0. apply (T a0 b0). apply si_delim; auto.
    + eapply IHt2; eauto. intros a0 b0 c0 d0 S0. apply (T a0 b0). apply si_sep; auto.
  - cbn [write_wrap] in X. inversion X; subst. eapply IHt; eauto. intros a0 b0 c0 d0 S0. apply (T a0 b0). constructor; auto.
  - cbn [write_wrap] in X. inversion X; subst. eapply IHt; eauto. intros a0 b0 c0 d0 S0. apply (T a0 b0). constructor; auto.
  - cbn [write_wrap] in X. inversion X; subst. eapply IHt; eauto. intros a0 b0 c0 d0 S0. apply (T a0 b0). constructor; auto.
  - rewrite write_scoped in X.
    assert (N2 : under w g = None -> under v (written w g) = None).
    { unfold under. rewrite written_wrap. destruct (lookup WrapRE g); [discriminate|]. intros E. rewrite E, (N E). destruct (existsb _ g); auto. }
    assert (W2 : forall x, under w g = Some x -> proper_wrap x) by (eapply tidy_under; eauto).
    apply si_scoped_inv in X as [[-> ->]|[X|(r & u' & I & X)]].
    + rewrite written_wrap in LN. destruct (lookup WrapRE g) eqn:L; [discriminate|].
      destruct (existsb (fun kv : string * term => is_stack_term (snd kv)) g) eqn:ST; [|auto].
      right. apply stack_term_b in ST. destruct ST as (r & ls & I). exists r, ls. apply (written_in w g) in I. exact I.
    + eapply IHt; eauto. eapply tidy_inner; eauto.
    + apply written_from in I as [(u & I & ->)|E].
      * rewrite Forall_forall in H. eapply (H _ I); eauto. eapply tidy_rule; eauto.
      * destruct (proper_flat _ (W _ E) _ _ _ X).
  - cbn [write_wrap] in X. inversion X; subst. eapply IHt; eauto. intros a0 b0 c0 d0 S0. apply (T a0 b0). constructor; auto.
Qed.

Lemma proper_write : forall x w, proper_wrap x -> write_wrap w x = x.
Proof. intros x w P. apply write_quiet, flat_quiet, proper_flat. auto. Qed.
Lemma resolve_layers_wrap : forall rule n, rule <> WrapRE -> forall ls i old g g1, old <> WrapRE -> resolve_layers rule n i old ls g = COk g1 ->
  lookup WrapRE g1 = lookup WrapRE g.
Proof.
  intros rule n NE. induction ls as [|l ls IH]; simpl; intros i old g g1 NO H; [inversion H; auto|].
  apply cbind_ok in H as (t & T & H). apply IH in H; [|apply layer_not_wrap; auto]. rewrite H. apply lookup_aset_neq. auto.
Qed.
Lemma resolve_stacks_wrap : forall g g1, (forall x, In (WrapRE, x) g -> proper_wrap x) -> resolve_stacks g = COk g1 -> lookup WrapRE g1 = lookup WrapRE g.
Proof.
  intros g g1 P H. unfold resolve_stacks in H. destruct (existsb _ g); [|inversion H; auto].
  assert (X : forall todo a, (forall kv, In kv todo -> In kv g) -> resolve_stacks_loop todo a = COk g1 -> lookup WrapRE g1 = lookup WrapRE a).
  { clear H. induction todo as [|[r t] todo IH]; simpl; intros a I H; [inversion H; auto|].
    destruct t; eauto. apply cbind_ok in H as (a1 & H1 & H). apply IH in H; auto. rewrite H.
    assert (r <> WrapRE) by (intros ->; eapply (P (TStack ts)); auto).
    eapply resolve_layers_wrap; eauto. }
  eapply X; eauto.
Qed.
Lemma left_wrap : forall g g', proper_wraps g -> left_behind g = COk g' -> lookup WrapRE g' = lookup WrapRE g.
Proof.
  intros g g' [P _] H. unfold left_behind in H. apply cbind_ok in H as (g1 & R & H). inversion H; subst. rewrite lookup_written.
  destruct (lookup WrapRE g) as [x|] eqn:L; auto. rewrite proper_write; auto. apply P. apply lookup_In; auto.
Qed.

(** The stacks of a grammar are resolved alike whatever became of its other rules. *)
Lemma stacks_alike : forall (f : term -> term) g g1, (forall ls, f (TStack ls) = TStack ls) -> (forall t ls, f t = TStack ls -> t = TStack ls) ->
  resolve_stacks g = COk g1 -> exists g2, resolve_stacks (map (fun kv => (fst kv, f (snd kv))) g) = COk g2.
Proof.
  intros f g g1 F1 F2 H. unfold resolve_stacks in *.
  replace (existsb (fun kv => is_stack (snd kv)) (map (fun kv : string * term => (fst kv, f (snd kv))) g)) with (existsb (fun kv : string * term => is_stack (snd kv)) g).
  2: { clear H. induction g as [|[r t] g IH]; simpl; auto. rewrite IH. f_equal. destruct (is_stack t) eqn:S1; [destruct t; try discriminate; rewrite F1; auto|].
    destruct (f t) eqn:S2; auto. rewrite (F2 _ _ S2) in S1. discriminate. }
  destruct (existsb _ g); [|eauto].
  assert (LAY : forall rule n ls i old a a1, resolve_layers rule n i old ls a = COk a1 -> forall b, exists b1, resolve_layers rule n i old ls b = COk b1).
  { clear. induction ls as [|l ls IH]; simpl; intros i old a a1 H b; [eauto|]. apply cbind_ok in H as (t & T & H). rewrite T. cbn [cbind]. eapply IH; eauto. }
  assert (X : forall todo a b, resolve_stacks_loop todo a = COk g1 -> exists g2, resolve_stacks_loop (map (fun kv => (fst kv, f (snd kv))) todo) b = COk g2).
  { clear H. induction todo as [|[r t] todo IH]; intros a b H; [simpl; eauto|]. cbn [map fst snd].
    destruct (is_stack t) eqn:S1.
    - destruct t; try discriminate. rewrite F1. cbn [resolve_stacks_loop] in *. apply cbind_ok in H as (a1 & H1 & H).
      destruct (LAY _ _ _ _ _ _ _ H1 b) as (b1 & ->). cbn [cbind]. eauto.
    - assert (H' : resolve_stacks_loop todo a = COk g1) by (destruct t; try discriminate; exact H).
      destruct (f t) eqn:S2; try (cbn [resolve_stacks_loop]; eapply IH; exact H'). rewrite (F2 _ _ S2) in S1. discriminate. }
  eapply X; eauto.
Qed.
Lemma write_stack_inv : forall w t ls, write_wrap w t = TStack ls -> t = TStack ls.
Proof. intros w t ls H. destruct t; try discriminate; auto. Qed.

Theorem left_twice : forall g g', proper_wraps g -> left_behind g = COk g' -> left_behind g' = COk g'.
Proof.
  intros g g' P H. pose proof (left_wrap _ _ P H) as LW. destruct P as [P1 P2]. unfold left_behind in H. apply cbind_ok in H as (g1 & R & H).
  pose proof (resolve_stacks_wrap _ _ P1 R) as W1. rewrite W1 in H. inversion H; subst g'. clear H.
  set (w := lookup WrapRE g) in *. assert (PW : forall x, w = Some x -> proper_wrap x) by (intros x E; apply P1; apply lookup_In; auto).
  assert (X1 : forall x, In (WrapRE, x) (map (fun kv => (fst kv, write_wrap w (snd kv))) g) -> proper_wrap x).
  { intros x I. apply in_map_iff in I as ((r & t) & E & I). simpl in E. inversion E; subst. rewrite proper_write; eauto. }
  destruct (stacks_alike (write_wrap w) g g1) as (g2 & R2); auto. { apply write_stack_inv. }
  pose proof (resolve_stacks_wrap _ _ X1 R2) as W2. apply (left_same _ _ R2). intros r t w1 h I S. apply in_map_iff in I as ((r0 & u) & E & I). simpl in E.
  inversion E; subst. revert w1 h S. apply written_quiet; auto.
  - intros a b c d S. eapply P2; eauto.
  - rewrite W2, LW. auto.
Qed.
