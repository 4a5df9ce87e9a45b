(** What the regular expressions of tokens match: lemmas about the matcher of Regex.v. *)
From Verif Require Import Base Scanner Engine Regex RegexProofs.
Local Open Scope Z_scope.

(** The state after reading [t], with [x] left. *)
Definition prev_of (t : bytes) (p : option ascii) : option ascii := fold_left (fun _ c => Some c) t p.
Definition adv (st : mstate) (t x : bytes) : mstate := mkM (mpos st + blen t) (prev_of t (mprev st)) x (mcaps st).

Lemma blen_app : forall a b : bytes, blen (a ++ b) = blen a + blen b.
Proof. intros. unfold blen. rewrite app_length. lia. Qed.
Lemma blen_cons : forall c (b : bytes), blen (c :: b) = 1 + blen b.
Proof. intros. unfold blen. cbn [length]. lia. Qed.
Lemma adv_nil : forall st x, mrest st = x -> adv st [] x = st.
Proof. intros [p q r c] x H. simpl in H. subst. unfold adv, blen. simpl. f_equal. lia. Qed.
Lemma adv_app : forall st t u x y, adv (adv st t x) u y = adv st (t ++ u) y.
Proof. intros. unfold adv. simpl. rewrite blen_app. unfold prev_of. rewrite fold_left_app. f_equal. lia. Qed.

(** The first way in which [r] matches is to take [t] off [t ++ x]. *)
Definition takes (r : re) (t x : bytes) : Prop :=
  forall st k o, mrest st = t ++ x -> k (adv st t x) = Some o -> mt r st k = Some o.
(** [r] cannot match at [x]. *)
Definition dead (r : re) (x : bytes) : Prop := forall st k, mrest st = x -> mt r st k = None.

Lemma takes_eps : forall x, takes REps [] x.
Proof. intros x st k o H K. simpl in *. rewrite adv_nil in K; auto. Qed.
Lemma takes_set : forall neg rs c x, in_set neg rs c = true -> takes (RSet neg rs) [c] x.
Proof.
  intros neg rs c x I st k o H K. cbn [mt]. simpl in H. rewrite H, I. unfold adv, prev_of, blen in K. simpl in K. exact K.
Qed.
Lemma takes_cat : forall a b t u x, takes a t (u ++ x) -> takes b u x -> takes (RCat a b) (t ++ u) x.
Proof.
  intros a b t u x A B st k o H K. cbn [mt]. eapply A. { rewrite H, app_assoc. auto. }
  eapply B; [reflexivity|]. rewrite adv_app. auto.
Qed.
Lemma takes_alt_l : forall a b t x, takes a t x -> takes (RAlt a b) t x.
Proof. intros a b t x A st k o H K. cbn [mt]. rewrite (A st k o H K). auto. Qed.
Lemma takes_alt_r : forall a b t x, dead a (t ++ x) -> takes b t x -> takes (RAlt a b) t x.
Proof. intros a b t x A B st k o H K. cbn [mt]. rewrite (A st k H). simpl. apply B; auto. Qed.
Lemma takes_opt : forall a t x, takes a t x -> takes (ROpt true a) t x.
Proof. intros a t x A st k o H K. cbn [mt]. rewrite (A st k o H K). auto. Qed.
Lemma takes_opt_none : forall a x, dead a x -> takes (ROpt true a) [] x.
Proof. intros a x A st k o H K. cbn [mt]. rewrite (A st k H). simpl. rewrite adv_nil in K; auto. Qed.
Lemma takes_line_end : forall x, (x = [] \/ exists y, x = nl :: y) -> takes (RAssert AEndLine) [] x.
Proof.
  intros x X st k o H K. cbn [mt assert_ok]. simpl in H. rewrite adv_nil in K by auto. rewrite H.
  destruct X as [->|[y ->]]; auto.
Qed.

Inductive takes_many (r : re) : list bytes -> bytes -> Prop :=
| tm_nil : forall x, dead r x -> takes_many r [] x
| tm_cons : forall u us x, u <> [] -> takes r u (concat us ++ x) -> takes_many r us x -> takes_many r (u :: us) x.

Lemma star_many : forall r us x, takes_many r us x -> forall n st k o, mrest st = concat us ++ x -> (length (mrest st) <= n)%nat ->
  k (adv st (concat us) x) = Some o -> star_loop (mt r) true k n st = Some o.
Proof.
  intros r us x M. induction M as [x D|u us x U T M IH]; intros n st k o H L K.
  - simpl in *. rewrite adv_nil in K by auto. destruct n; simpl; auto. rewrite D by auto. auto.
  - simpl in H. assert (LU : (0 < length u)%nat) by (destruct u; simpl; [congruence|lia]).
    destruct n as [|n]. { rewrite H, !app_length in L. lia. }
    cbn [star_loop]. erewrite (T st _ o); [reflexivity|rewrite H, app_assoc; auto|].
    simpl. rewrite H. rewrite (proj2 (Nat.ltb_lt _ _)); [|rewrite !app_length; lia].
    rewrite H, !app_length in L.
    apply IH; [reflexivity|simpl; rewrite app_length; lia|]. rewrite adv_app. auto.
Qed.
Lemma takes_star : forall r us x, takes_many r us x -> takes (RStar true r) (concat us) x.
Proof. intros r us x M st k o H K. cbn [mt]. apply (star_many r us x M); auto. Qed.

(** Runs of single characters. *)
Lemma dead_set : forall neg rs x, (forall c y, x = c :: y -> in_set neg rs c = false) -> dead (RSet neg rs) x.
Proof. intros neg rs x X st k H. cbn [mt]. rewrite H. destruct x as [|c y]; auto. rewrite (X c y); auto. Qed.
Lemma takes_run : forall neg rs t x, forallb (in_set neg rs) t = true -> (forall c y, x = c :: y -> in_set neg rs c = false) ->
  takes (RStar true (RSet neg rs)) t x.
Proof.
  intros neg rs t x T X. assert (Q : t = concat (map (fun c => [c]) t)) by (induction t; simpl; [|rewrite <- IHt]; auto; simpl in T; apply andb_true_iff in T; tauto).
  rewrite Q. apply takes_star. clear Q. induction t as [|c t IH]; simpl in *.
  - constructor. apply dead_set; auto.
  - apply andb_true_iff in T as [T1 T2]. constructor; [discriminate|apply takes_set; auto|auto].
Qed.

(** * Where an expression cannot start *)
Fixpoint nullable (r : re) : bool :=
  match r with
  | REps | RStar _ _ | ROpt _ _ | RAssert _ => true
  | RSet _ _ => false
  | RCat a b => nullable a && nullable b
  | RAlt a b => nullable a || nullable b
  | RGroup _ a => nullable a
  end.
Fixpoint begins (r : re) (c : ascii) : bool :=
  match r with
  | REps | RAssert _ => false
  | RSet neg rs => in_set neg rs c
  | RCat a b => begins a c || nullable a && begins b c
  | RAlt a b => begins a c || begins b c
  | RStar _ a | ROpt _ a | RGroup _ a => begins a c
  end.
Definition stuck (r : re) (x : bytes) : Prop := forall c y, x = c :: y -> begins r c = false.

Lemma mt_stuck : forall r st k, stuck r (mrest st) -> (nullable r = true -> forall st', mrest st' = mrest st -> k st' = None) -> mt r st k = None.
Proof.
  induction r as [|neg rs|a IHa b IHb|a IHa b IHb|g a IHa|g a IHa|n a IHa|q]; intros st k S N; cbn [mt nullable] in *.
  - auto.
  - destruct (mrest st) as [|c y] eqn:R; auto. specialize (S c y eq_refl). cbn [begins] in S. rewrite S. auto.
  - apply IHa.
    + intros c y Q. specialize (S c y Q). cbn [begins] in S. apply orb_false_iff in S. tauto.
    + intros NA st' Q. apply IHb.
      * intros c y Q2. rewrite Q in Q2. specialize (S c y Q2). cbn [begins] in S. rewrite NA in S. apply orb_false_iff in S. tauto.
      * intros NB st2 Q2. apply N; [rewrite NA, NB; auto|congruence].
  - rewrite IHa.
    + simpl. apply IHb; [|intros NB; apply N; rewrite NB, orb_true_r; auto].
      intros c y Q. specialize (S c y Q). cbn [begins] in S. apply orb_false_iff in S. tauto.
    + intros c y Q. specialize (S c y Q). cbn [begins] in S. apply orb_false_iff in S. tauto.
    + intros NA; apply N; rewrite NA; auto.
  - cbn [star_loop]. assert (M : mt a st (fun st' => if Nat.ltb (length (mrest st')) (length (mrest st))
        then star_loop (mt a) g k (length (mrest st)) st' else None) = None).
    { apply IHa; auto. intros _ st' Q. rewrite Q, Nat.ltb_irrefl. auto. }
    rewrite M. rewrite (N eq_refl st eq_refl). destruct g; auto.
  - assert (M : mt a st k = None) by (apply IHa; auto). rewrite M. rewrite (N eq_refl st eq_refl). destruct g; auto.
  - apply IHa; auto.
  - destruct (assert_ok q st); auto.
Qed.
Lemma dead_stuck : forall r x, nullable r = false -> stuck r x -> dead r x.
Proof. intros r x N S st k Q. apply mt_stuck; [rewrite Q; auto|congruence]. Qed.
Lemma dead_lit : forall s x, has_prefix s x = false -> dead (lit_re s) x.
Proof. intros s x P st k Q. rewrite mt_lit, Q, P. auto. Qed.
Lemma has_prefix_self : forall (s x : bytes), has_prefix s (s ++ x) = true.
Proof. induction s as [|c s IH]; intros x; [auto|]. cbn [app has_prefix]. rewrite Ascii.eqb_refl. apply IH. Qed.
Lemma takes_lit : forall s x, takes (lit_re s) s x.
Proof.
  induction s as [|c s IH]; intros x.
  - intros st k o H K. simpl in *. rewrite adv_nil in K; auto.
  - change (lit_re (c :: s)) with (RCat (RSet false (lit c)) (lit_re s)). change (c :: s) with ([c] ++ s).
    apply takes_cat; auto. apply takes_set. rewrite in_lit. apply Ascii.eqb_refl.
Qed.
Lemma dead_cat : forall a b x, dead a x -> dead (RCat a b) x.
Proof. intros a b x A st k Q. cbn [mt]. apply A; auto. Qed.
Lemma dead_alt : forall a b x, dead a x -> dead b x -> dead (RAlt a b) x.
Proof. intros a b x A B st k Q. cbn [mt]. rewrite A, B; auto. Qed.

(** * Tokens between white space *)
Definition spaces : re := RStar true (RSet false space_ranges).
Definition token_re (r : re) : re := RCat spaces (RCat (RCat (RGroup 1 r) REps) (RCat spaces REps)).
Definition is_space (c : ascii) : bool := in_set false space_ranges c.
Definition bare (x : bytes) : Prop := forall c y, x = c :: y -> is_space c = false.

Lemma token_taken : forall r w t w' x, forallb is_space w = true -> bare (t ++ w' ++ x) -> forallb is_space w' = true -> bare x ->
  takes r t (w' ++ x) ->
  exists st, mt (token_re r) (mkM 0 None (w ++ t ++ w' ++ x) []) Some = Some st /\
    mpos st = blen w + blen t + blen w' /\ mcaps st = [(1%nat, (blen w, blen w + blen t))].
Proof.
  intros r w t w' x W B W' X T. eexists. split.
  - unfold token_re. cbn [mt]. unfold spaces.
    eapply (takes_run false space_ranges w (t ++ w' ++ x) W B (mkM 0 None (w ++ t ++ w' ++ x) [])); [reflexivity|].
    cbn [mt]. eapply T; [reflexivity|]. eapply (takes_run false space_ranges w' x W' X); [reflexivity|]. reflexivity.
  - simpl. split; [lia|reflexivity].
Qed.

Lemma run_none : forall w x k, forallb is_space w = true -> (forall w1 w2 st, w = w1 ++ w2 -> mrest st = w2 ++ x -> k st = None) -> bare x ->
  forall n st, mrest st = w ++ x -> star_loop (mt (RSet false space_ranges)) true k n st = None.
Proof.
  induction w as [|c w IH]; intros x k W K B n st Q.
  - destruct n; cbn [star_loop mt]. { apply (K [] []); auto. }
    simpl in Q. rewrite Q. destruct x as [|c x]; cbn [orelse]; [apply (K [] []); auto|].
    specialize (B c x eq_refl). unfold is_space in B. rewrite B. cbn [orelse]. apply (K [] []); auto.
  - cbn [forallb] in W. apply andb_true_iff in W as [W1 W2].
    destruct n; cbn [star_loop mt]. { apply (K [] (c :: w)); auto. }
    cbn [app] in Q. rewrite Q. unfold is_space in W1. rewrite W1. cbn [mrest length]. rewrite (proj2 (Nat.ltb_lt _ _)) by lia.
    rewrite (IH x k); auto.
    + cbn [orelse]. apply (K [] (c :: w)); auto.
    + intros w1 w2 st' -> Q'. apply (K (c :: w1) w2); auto.
Qed.
Lemma token_missing : forall r w x, forallb is_space w = true -> bare x -> nullable r = false ->
  (forall c, is_space c = true -> begins r c = false) -> dead r x -> mt (token_re r) (mkM 0 None (w ++ x) []) Some = None.
Proof.
  intros r w x W B N S D. unfold token_re. cbn [mt]. unfold spaces. cbn [mt].
  apply (run_none w x); auto.
  intros w1 w2 st -> Q. destruct w2 as [|c w2]; [apply D; auto|].
  apply (dead_stuck r (mrest st)); auto. intros c' y Q'. rewrite Q in Q'. inversion Q'; subst. apply S.
  rewrite forallb_app in W. simpl in W. apply andb_true_iff in W as [_ W]. apply andb_true_iff in W. tauto.
Qed.

Lemma find_token : forall pat r t, parse_re pat = Some (RCat (RAssert ABegText) (token_re r), 1%nat) ->
  re_find regex_engine pat t = match mt (token_re r) (mkM 0 None t []) Some with
                               | Some st => Some [(0, mpos st); match cap_get 1 (mcaps st) with Some g => g | None => (-1, -1) end]
                               | None => None
                               end.
Proof.
  intros pat r t P. unfold regex_engine. cbn [re_find]. rewrite P, search_anchor0. destruct (mt (token_re r) _ Some); auto.
Qed.
