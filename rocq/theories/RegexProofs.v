(** The concrete engine of Regex.v meets the contract of Engine.v. *)
From Verif Require Import Base Scanner Engine Regex.
Local Open Scope Z_scope.

(** * Matching *)

Lemma cap_get_set : forall i j g l,
  cap_get j (cap_set i g l) = if Nat.eqb j i then Some g else cap_get j l.
Proof.
  induction l as [|[n h] l IH]; simpl; auto.
  destruct (Nat.eqb_spec i n); simpl.
  - subst n. destruct (Nat.eqb j i); auto.
  - rewrite IH. destruct (Nat.eqb_spec j n), (Nat.eqb_spec j i); congruence.
Qed.

(** One matching step: some text is eaten and new captures lie over it. *)
Definition mext (st st' : mstate) : Prop :=
  exists w, mrest st = w ++ mrest st' /\ mpos st' = mpos st + blen w /\
    forall i g, cap_get i (mcaps st') = Some g ->
      cap_get i (mcaps st) = Some g \/ (mpos st <= fst g /\ fst g <= snd g /\ snd g <= mpos st').

Lemma blen_nonneg' : forall w, 0 <= blen w.
Proof. intros. unfold blen. lia. Qed.

Lemma mext_refl : forall st, mext st st.
Proof. intros st. exists []. split; [auto|]. split; [unfold blen; simpl; lia|]. auto. Qed.

Lemma mext_trans : forall a b c, mext a b -> mext b c -> mext a c.
Proof.
  intros a b c (w & H1 & H2 & H3) (v & G1 & G2 & G3).
  exists (w ++ v). split; [rewrite H1, G1, app_assoc; auto|].
  split; [rewrite G2, H2; unfold blen; rewrite app_length; lia|].
  intros i g Hg. destruct (G3 _ _ Hg) as [Hb|Hb].
  - destruct (H3 _ _ Hb) as [Ha|Ha]; auto. right. pose proof (blen_nonneg' v). lia.
  - right. pose proof (blen_nonneg' w). lia.
Qed.

Lemma star_sound : forall step greedy k,
  (forall st k' out, step st k' = Some out -> exists st', mext st st' /\ k' st' = Some out) ->
  forall n st out, star_loop step greedy k n st = Some out ->
  exists st', mext st st' /\ k st' = Some out.
Proof.
  intros step greedy k Hs. induction n as [|n IH]; intros st out H; simpl in H.
  - exists st; split; auto using mext_refl.
  - assert (M : forall o, step st (fun st' => if Nat.ltb (length (mrest st')) (length (mrest st))
        then star_loop step greedy k n st' else None) = Some o ->
        exists st', mext st st' /\ k st' = Some o).
    { intros o Ho. destruct (Hs _ _ _ Ho) as (s2 & E2 & K2).
      destruct (Nat.ltb (length (mrest s2)) (length (mrest st))); [|discriminate].
      destruct (IH _ _ K2) as (s3 & E3 & K3). exists s3; split; auto. eapply mext_trans; eauto. }
    unfold orelse in H. destruct greedy.
    + destruct (step st _) eqn:E in H.
      * inversion H; subst. eauto.
      * exists st; split; auto using mext_refl.
    + destruct (k st) eqn:E.
      * inversion H; subst. exists st; split; auto using mext_refl.
      * eauto.
Qed.

Lemma mt_sound : forall r st k out, mt r st k = Some out ->
  exists st', mext st st' /\ k st' = Some out.
Proof.
  induction r as [|neg rs|a IHa b IHb|a IHa b IHb|g a IHa|g a IHa|n a IHa|a]; cbn [mt]; intros st k out H.
  - exists st; split; auto using mext_refl.
  - destruct (mrest st) as [|c rest] eqn:E; [discriminate|].
    destruct (in_set neg rs c); [|discriminate].
    eexists; split; [|exact H]. exists [c]. simpl. rewrite E. split; [auto|]. split; [reflexivity|]. auto.
  - destruct (IHa _ _ _ H) as (s1 & E1 & K1). destruct (IHb _ _ _ K1) as (s2 & E2 & K2).
    exists s2; split; auto. eapply mext_trans; eauto.
  - unfold orelse in H. destruct (mt a st k) eqn:E.
    + inversion H; subst. eauto.
    + eauto.
  - exact (star_sound (mt a) g k IHa _ _ _ H).
  - unfold orelse in H. destruct g.
    + destruct (mt a st k) eqn:E.
      * inversion H; subst. eauto.
      * exists st; split; auto using mext_refl.
    + destruct (k st) eqn:E.
      * inversion H; subst. exists st; split; auto using mext_refl.
      * eauto.
  - destruct (IHa _ _ _ H) as (s1 & (w & E1 & E2 & E3) & K1).
    eexists; split; [|exact K1]. exists w. simpl. split; [auto|]. split; [auto|].
    intros i gg Hg. rewrite cap_get_set in Hg. destruct (Nat.eqb i n).
    + inversion Hg; subst; simpl. right. pose proof (blen_nonneg' w). lia.
    + auto.
  - destruct (assert_ok a st); [|discriminate]. exists st; split; auto using mext_refl.
Qed.

Lemma search_sound : forall r rest pos prev a st, search r pos prev rest = Some (a, st) ->
  pos <= a /\ a <= mpos st /\ mpos st <= pos + blen rest /\
  forall i g, cap_get i (mcaps st) = Some g -> a <= fst g /\ fst g <= snd g /\ snd g <= mpos st.
Proof.
  assert (Here : forall r rest pos prev st, mt r (mkM pos prev rest []) Some = Some st ->
    pos <= mpos st /\ mpos st <= pos + blen rest /\
    forall i g, cap_get i (mcaps st) = Some g -> pos <= fst g /\ fst g <= snd g /\ snd g <= mpos st).
  { intros r rest pos prev st H. destruct (mt_sound _ _ _ _ H) as (s & (w & E1 & E2 & E3) & K).
    inversion K; subst. simpl in *. subst rest. unfold blen in *. rewrite app_length.
    split; [lia|]. split; [lia|].
    intros i g Hg. destruct (E3 _ _ Hg) as [C|C]; [discriminate|lia]. }
  induction rest as [|c rest IH]; intros pos prev a st H; simpl in H.
  - destruct (mt r (mkM pos prev [] []) Some) eqn:E; [|discriminate]. inversion H; subst.
    destruct (Here _ _ _ _ _ E) as (A & B & C). split; [lia|]. auto.
  - destruct (mt r (mkM pos prev (c :: rest) []) Some) eqn:E.
    + inversion H; subst. destruct (Here _ _ _ _ _ E) as (A & B & C). split; [lia|]. auto.
    + destruct (IH _ _ _ _ H) as (A & B & C & D). unfold blen in *. simpl length.
      split; [lia|]. split; [lia|]. split; [lia|auto].
Qed.

(** * Literals *)

Fixpoint lit_re (s : bytes) : re :=
  match s with [] => REps | c :: s' => RCat (RSet false (lit c)) (lit_re s') end.

Lemma cle_antisym : forall a b, cle a b && cle b a = Ascii.eqb a b.
Proof.
  intros a b. destruct (Ascii.eqb a b) eqn:E.
  - apply Ascii.eqb_eq in E; subst. unfold cle. rewrite Nat.leb_refl. auto.
  - apply Ascii.eqb_neq in E. apply andb_false_iff. unfold cle.
    destruct (Nat.leb (nat_of_ascii a) (nat_of_ascii b)) eqn:F; auto.
    right. apply Nat.leb_gt. apply Nat.leb_le in F.
    assert (nat_of_ascii a <> nat_of_ascii b).
    { intros C. apply E. rewrite <- (ascii_nat_embedding a), <- (ascii_nat_embedding b), C; auto. }
    lia.
Qed.

Lemma in_lit : forall c d, in_set false (lit c) d = Ascii.eqb c d.
Proof. intros. unfold in_set, lit. simpl. rewrite orb_false_r. rewrite cle_antisym. destruct (Ascii.eqb c d); auto. Qed.

Lemma mt_lit : forall s st k, mt (lit_re s) st k =
  if has_prefix s (mrest st)
  then k (mkM (mpos st + blen s) (match rev s with [] => mprev st | c :: _ => Some c end)
              (skipn (length s) (mrest st)) (mcaps st))
  else None.
Proof.
  induction s as [|c s IH]; intros st k.
  - destruct st as [mp pv rs cp]; simpl. replace (mp + blen []) with mp by (unfold blen; simpl; lia). auto.
  - cbn [lit_re mt]. destruct (mrest st) as [|d rest] eqn:E; [reflexivity|].
    rewrite in_lit. cbn [has_prefix]. destruct (Ascii.eqb c d) eqn:F; [|reflexivity].
    rewrite IH. cbn [mrest mpos mprev mcaps andb]. destruct (has_prefix s rest); auto.
    f_equal. f_equal.
    + unfold blen. simpl length. lia.
    + apply Ascii.eqb_eq in F; subst d.
      simpl rev. destruct (rev s) eqn:G; auto.
Qed.

(** * Lexing and parsing of literals and groups *)

Ltac ascii_cases c := destruct c as [[|] [|] [|] [|] [|] [|] [|] [|]].

Lemma quote_meta_cons : forall c s, quote_meta (c :: s) = quote_meta [c] ++ quote_meta s.
Proof. intros. simpl. destruct (is_meta c); reflexivity. Qed.

Lemma lex1_quoted_safe : forall c y, lex1 (quote_meta [c] ++ y) = Some (KSet false (lit c), y).
Proof. intros c y. ascii_cases c; reflexivity. Qed.

Lemma lex_quoted : forall s q n, (length (quote_meta s) <= n)%nat ->
  lex n (quote_meta s ++ q) =
  match q with
  | [] => Some (map (fun c => KSet false (lit c)) s)
  | _ => match lex (n - length s) q with
         | Some ts => Some (map (fun c => KSet false (lit c)) s ++ ts)
         | None => None
         end
  end.
Proof.
  induction s as [|c s IH]; intros q n Hn.
  - cbn [quote_meta app length map]. rewrite Nat.sub_0_r. destruct q as [|a q]; [destruct n; reflexivity|].
    destruct (lex n (a :: q)); reflexivity.
  - rewrite quote_meta_cons in *. rewrite app_length in Hn. rewrite <- app_assoc.
    assert (exists d r, quote_meta [c] = d :: r) as (d & r & Ed).
    { simpl. destruct (is_meta c); eauto. }
    assert (lex1 (quote_meta [c] ++ quote_meta s ++ q) = Some (KSet false (lit c), quote_meta s ++ q))
      as L by apply lex1_quoted_safe.
    rewrite Ed in *. simpl in Hn. destruct n as [|n]; [lia|].
    change ((d :: r) ++ quote_meta s ++ q) with (d :: (r ++ quote_meta s ++ q)) in *.
    cbn [lex]. rewrite L. rewrite IH by lia.
    simpl length. replace (S n - S (length s))%nat with (n - length s)%nat by lia.
    simpl map. destruct q; auto. destruct (lex (n - length s) (a :: q)); auto.
Qed.

Lemma prun_lits : forall s st,
  prun (map (fun c => KSet false (lit c)) s) st =
  Some (fold_left (fun p c => push (RSet false (lit c)) p) s st).
Proof. induction s; intros; simpl; auto. Qed.

Lemma fold_push : forall s st,
  fold_left (fun p c => push (RSet false (lit c)) p) s st =
  mkP (mkF (f_alts (p_cur st)) (rev (map (fun c => RSet false (lit c)) s) ++ f_cur (p_cur st))
           (f_grp (p_cur st)) (f_m (p_cur st)) (f_s (p_cur st)))
      (p_stk st) (p_next st) (match s with [] => p_rep st | _ => false end).
Proof.
  induction s as [|c s IH]; intros st.
  - destruct st as [[al cu gr fm fs] stk nx rp]; reflexivity.
  - simpl fold_left. rewrite IH. unfold push; simpl. rewrite <- app_assoc. simpl.
    destruct s; auto.
Qed.

Lemma cat_rev_lits : forall s acc,
  fold_left (fun a r => RCat r a) (rev (map (fun c => RSet false (lit c)) s)) acc =
  fold_right (fun c r => RCat (RSet false (lit c)) r) acc s.
Proof.
  induction s as [|c s IH]; intros acc; simpl; auto.
  rewrite fold_left_app. simpl. rewrite IH. auto.
Qed.

Lemma lit_re_fold : forall s, fold_right (fun c r => RCat (RSet false (lit c)) r) REps s = lit_re s.
Proof. induction s; simpl; congruence. Qed.

(** The state after the common prefix of all patterns. *)
Definition anchored : pstate := mkP (mkF None [RAssert ABegText] None true false) [] 1 false.
Definition in_group : pstate :=
  mkP (mkF None [] (Some 1%nat) true false) [mkF None [RAssert ABegText] None true false] 2 false.

Lemma lex_anchor : forall n y, lex (S (S (S n))) (anchor ++ group y) =
  match lex n (y ++ [")"%char]) with
  | Some ts => Some (KFlags (Some true) None :: KAssert ABegText :: KOpen :: ts)
  | None => None
  end \/ exists z, y = "?"%char :: z.
Proof.
  intros n y. destruct y as [|c y].
  - left. destruct n as [|[|n]]; reflexivity.
  - destruct (Ascii.eqb c "?") eqn:E; [apply Ascii.eqb_eq in E; subst; eauto|left].
    change (anchor ++ group (c :: y)) with
      ("("%char :: "?"%char :: "m"%char :: ")"%char :: "\"%char :: "A"%char :: "("%char :: c :: (y ++ [")"%char])).
    cbn [lex].
    change (lex1 ("("%char :: "?"%char :: "m"%char :: ")"%char :: "\"%char :: "A"%char :: "("%char :: c :: (y ++ [")"%char])))
      with (Some (KFlags (Some true) None, "\"%char :: "A"%char :: "("%char :: c :: (y ++ [")"%char]))).
    cbv iota.
    change (lex1 ("\"%char :: "A"%char :: "("%char :: c :: (y ++ [")"%char])))
      with (Some (KAssert ABegText, "("%char :: c :: (y ++ [")"%char]))).
    cbv iota.
    assert (L : lex1 ("("%char :: c :: (y ++ [")"%char])) = Some (KOpen, c :: (y ++ [")"%char]))).
    { simpl. rewrite E. auto. }
    rewrite L. change ((c :: y) ++ [")"%char]) with (c :: (y ++ [")"%char])).
    destruct (lex n (c :: (y ++ [")"%char]))); auto.
Qed.

Lemma anchor_group_length : forall y, length (anchor ++ group y) = S (S (S (5 + length y))).
Proof. intros. unfold group. simpl. rewrite app_length. simpl. lia. Qed.

(** lexing with more fuel than characters *)
Lemma flags_shorter : forall x on fm fs t y, flags x on fm fs = Some (t, y) -> (length y < length x)%nat.
Proof.
  induction x as [|c x IH]; intros on fm fs t y H; simpl in H; [discriminate|].
  simpl length.
  repeat match type of H with
         | (if ?b then _ else _) = _ => destruct b
         end; try discriminate; try (apply IH in H; lia); inversion H; subst; lia.
Qed.

Lemma char_escape_shorter : forall x e y, char_escape x = Some (e, y) -> (length y < length x)%nat.
Proof.
  intros [|c x] e y H; simpl in H; [discriminate|].
  simpl length.
  repeat match type of H with
         | (if ?b then _ else _) = _ => destruct b
         end; try discriminate; try (inversion H; subst; lia).
  destruct x as [|h [|l x]]; try discriminate.
  destruct (hexval h), (hexval l); try discriminate. inversion H; subst. simpl. lia.
Qed.

Lemma class_char_shorter : forall x e y, class_char x = Some (e, y) -> (length y < length x)%nat.
Proof.
  intros [|c x] e y H; simpl in H; [discriminate|]. destruct (Ascii.eqb c "\").
  - apply char_escape_shorter in H. simpl; lia.
  - inversion H; subst. simpl; lia.
Qed.

Lemma find_posix_shorter : forall tbl x rs y, find_posix tbl x = Some (rs, y) -> (length y <= length x)%nat.
Proof.
  induction tbl as [|[n r] tbl IH]; intros x rs y H; simpl in H; [discriminate|].
  destruct (has_prefix n x); eauto. inversion H; subst. rewrite skipn_length. lia.
Qed.

(** Extending the text after a successful class. *)
Lemma char_escape_app : forall x e y q, char_escape x = Some (e, y) -> char_escape (x ++ q) = Some (e, y ++ q).
Proof.
  intros [|c x] e y q H; simpl in *; [discriminate|].
  repeat match type of H with
         | (if ?b then _ else _) = _ => destruct b
         end; try discriminate; try (inversion H; subst; auto).
  destruct x as [|h [|l x]]; try discriminate. simpl.
  destruct (hexval h), (hexval l); try discriminate. inversion H; subst. auto.
Qed.

Lemma class_char_app : forall x e y q, class_char x = Some (e, y) -> class_char (x ++ q) = Some (e, y ++ q).
Proof.
  intros [|c x] e y q H; simpl in *; [discriminate|]. destruct (Ascii.eqb c "\").
  - apply char_escape_app; auto.
  - inversion H; subst; auto.
Qed.

Lemma has_prefix_app : forall n x q, has_prefix n x = true -> has_prefix n (x ++ q) = true.
Proof.
  induction n as [|c n IH]; intros [|d x] q H; simpl in *; auto; try discriminate.
  apply andb_true_iff in H as [H1 H2]. rewrite H1. simpl. auto.
Qed.

Lemma has_prefix_len : forall n x, has_prefix n x = true -> (length n <= length x)%nat.
Proof.
  induction n as [|c n IH]; intros [|d x] H; simpl in *; try discriminate; try lia.
  apply andb_true_iff in H as [_ H]. apply IH in H. lia.
Qed.

Lemma skipn_app_le : forall {A} n (x q : list A), (n <= length x)%nat -> skipn n (x ++ q) = skipn n x ++ q.
Proof. intros. rewrite skipn_app. replace (n - length x)%nat with 0%nat by lia. auto. Qed.

(** Class tables have no name that is a prefix of another continuation: a hit stays the
    first hit when text is appended. *)
Lemma find_posix_app : forall x rs y q, find_posix posix x = Some (rs, y) ->
  find_posix posix (x ++ q) = Some (rs, y ++ q).
Proof.
  assert (G : forall tbl,
    (forall i j ni nj, nth_error tbl i = Some ni -> nth_error tbl j = Some nj -> i <> j ->
        forall z, has_prefix (fst ni) z = true -> has_prefix (fst nj) z = true -> False) ->
    forall x rs y q, find_posix tbl x = Some (rs, y) -> find_posix tbl (x ++ q) = Some (rs, y ++ q)).
  { induction tbl as [|[n r] tbl IH]; intros D x rs y q H; simpl in *; [discriminate|].
    destruct (has_prefix n x) eqn:E.
    - inversion H; subst. rewrite (has_prefix_app _ _ q E). rewrite skipn_app_le; auto.
      apply has_prefix_len; auto.
    - assert (Hr : find_posix tbl (x ++ q) = Some (rs, y ++ q)).
      { apply IH; auto. intros i j ni nj Hi Hj Hn z. apply (D (S i) (S j) ni nj); auto. }
      destruct (has_prefix n (x ++ q)) eqn:F; auto.
      exfalso. clear IH.
      assert (exists j nj, nth_error tbl j = Some nj /\ has_prefix (fst nj) x = true) as (j & nj & Hj & Pj).
      { clear -H. revert x H. induction tbl as [|[m t] tbl IH]; simpl; intros x H; [discriminate|].
        destruct (has_prefix m x) eqn:E.
        - exists 0%nat, (m, t). auto.
        - destruct (IH _ H) as (j & nj & A & B). exists (S j), nj. auto. }
      apply (D 0%nat (S j) (n, r) nj eq_refl Hj ltac:(lia) (x ++ q)); auto.
      apply has_prefix_app; auto. }
  apply G.
  intros i j ni nj Hi Hj Hn z Hz1 Hz2.
  apply has_prefix_iff in Hz1 as (u & Hu). apply has_prefix_iff in Hz2 as (v & Hv).
  subst z.
  do 7 (destruct i as [|i]; [inversion Hi; subst ni; clear Hi;
        do 7 (destruct j as [|j]; [inversion Hj; subst nj; clear Hj; simpl in Hv; congruence|]);
        destruct j; discriminate|]).
  destruct i; discriminate.
Qed.

Lemma class_items_app : forall f first x acc rs y q, class_items f first x acc = Some (rs, y) ->
  forall f', (f <= f')%nat -> class_items f' first (x ++ q) acc = Some (rs, y ++ q).
Proof.
  induction f as [|f IH]; intros first x acc rs y q H f' Hf; [discriminate|].
  destruct f' as [|f']; [lia|].
  destruct x as [|c x]; [discriminate|].
  cbn [class_items] in H. cbn [class_items app].
  destruct (Ascii.eqb c "]" && negb first).
  { inversion H; subst; auto. }
  destruct (Ascii.eqb c "\") eqn:Eb.
  - apply Ascii.eqb_eq in Eb; subst c.
    destruct x as [|d x']; [simpl in H; discriminate|].
    cbn [app]. destruct (class_escape d) as [r|] eqn:Ec.
    + apply IH; auto. lia.
    + simpl (Ascii.eqb "\" "[") in *. cbn [andb] in *.
      destruct (class_char ("\"%char :: d :: x')) as [[lo z]|] eqn:Ecc; [|discriminate].
      change ("\"%char :: d :: x' ++ q) with (("\"%char :: d :: x') ++ q).
      rewrite (class_char_app _ _ _ q Ecc).
      destruct z as [|e z]; [discriminate|]. cbn [app].
      destruct (Ascii.eqb e "-").
      * destruct z as [|g z]; [discriminate|]. cbn [app].
        destruct (Ascii.eqb g "]").
        -- apply (IH _ (e :: g :: z)); auto. lia.
        -- destruct (class_char (g :: z)) as [[hi w]|] eqn:Ehi; [|discriminate].
           change (g :: z ++ q) with ((g :: z) ++ q). rewrite (class_char_app _ _ _ q Ehi).
           destruct (cle lo hi); [|discriminate]. apply IH; auto. lia.
      * apply (IH _ (e :: z)); auto. lia.
  - destruct (Ascii.eqb c "[" && has_prefix (bs ":") x) eqn:Ep.
    + destruct (find_posix posix (tl x)) as [[r z]|] eqn:Ef; [|discriminate].
      assert (has_prefix (bs ":") (x ++ q) = true) as Hp.
      { apply andb_true_iff in Ep as [_ Ep]. apply has_prefix_app; auto. }
      apply andb_true_iff in Ep as [Ep1 Ep2]. rewrite Ep1, Hp. cbn [andb].
      assert (tl (x ++ q) = tl x ++ q) as Ht.
      { destruct x; [discriminate|reflexivity]. }
      rewrite Ht, (find_posix_app _ _ _ q Ef). apply IH; auto. lia.
    + assert (Hx : x <> []).
      { intros ->. unfold class_char in H. rewrite Eb in H. discriminate. }
      assert (has_prefix (bs ":") (x ++ q) = has_prefix (bs ":") x) as Hp.
      { destruct x; [congruence|]. simpl. destruct x; auto. }
      rewrite Hp, Ep.
      destruct (class_char (c :: x)) as [[lo z]|] eqn:Ecc; [|discriminate].
      change (c :: x ++ q) with ((c :: x) ++ q).
      rewrite (class_char_app _ _ _ q Ecc).
      destruct z as [|e z]; [discriminate|]. cbn [app].
      destruct (Ascii.eqb e "-").
      * destruct z as [|g z]; [discriminate|]. cbn [app].
        destruct (Ascii.eqb g "]").
        -- apply (IH _ (e :: g :: z)); auto. lia.
        -- destruct (class_char (g :: z)) as [[hi w]|] eqn:Ehi; [|discriminate].
           change (g :: z ++ q) with ((g :: z) ++ q). rewrite (class_char_app _ _ _ q Ehi).
           destruct (cle lo hi); [|discriminate]. apply IH; auto. lia.
      * apply (IH _ (e :: z)); auto. lia.
Qed.

Lemma flags_app : forall x on fm fs t y q, flags x on fm fs = Some (t, y) ->
  flags (x ++ q) on fm fs = Some (t, y ++ q).
Proof.
  induction x as [|c x IH]; intros on fm fs t y q H; simpl in *; [discriminate|].
  repeat match type of H with
         | (if ?b then _ else _) = _ => destruct b
         end; try discriminate; auto; inversion H; subst; auto.
Qed.

Lemma lazy_mark_app : forall x, lazy_mark (x ++ [")"%char]) = (fst (lazy_mark x), snd (lazy_mark x) ++ [")"%char]).
Proof. intros [|c x]; simpl; auto. destruct (Ascii.eqb c "?"); auto. Qed.

Lemma take_digits_app : forall x, take_digits (x ++ [")"%char]) =
  (fst (take_digits x), snd (take_digits x) ++ [")"%char]).
Proof.
  induction x as [|c x IH]; [reflexivity|]. simpl. destruct (is_digit c); auto.
  rewrite IH. destruct (take_digits x); auto.
Qed.

Lemma rep_bounds_app : forall x, rep_bounds (x ++ [")"%char]) =
  match rep_bounds x with Some (a, b, y) => Some (a, b, y ++ [")"%char]) | None => None end.
Proof.
  intros x. unfold rep_bounds. rewrite take_digits_app.
  destruct (take_digits x) as [d r]. simpl fst; simpl snd.
  destruct d; auto. destruct r as [|c r]; [reflexivity|]. cbn [app].
  destruct (Ascii.eqb c "}"); auto. destruct (Ascii.eqb c ","); auto.
  rewrite take_digits_app. destruct (take_digits r) as [d2 r2]. simpl fst; simpl snd.
  destruct r2 as [|e r2]; [reflexivity|]. cbn [app].
  destruct (Ascii.eqb e "}"); auto. destruct d2; auto. destruct (Nat.leb _ _); auto.
Qed.

Lemma lex1_app : forall x t y, lex1 x = Some (t, y) -> lex1 (x ++ [")"%char]) = Some (t, y ++ [")"%char]).
Proof.
  intros [|c x] t y H; [discriminate|].
  cbn [app]. unfold lex1 in *.
  destruct (Ascii.eqb c "\").
  { destruct x as [|d x]; [discriminate|]. cbn [app].
    destruct (class_escape d); [inversion H; subst; auto|].
    destruct (assert_escape d); [inversion H; subst; auto|].
    destruct (char_escape (d :: x)) as [[e z]|] eqn:E; [|discriminate].
    change (d :: x ++ [")"%char]) with ((d :: x) ++ [")"%char]).
    rewrite (char_escape_app _ _ _ _ E). inversion H; subst; auto. }
  do 5 (match type of H with (if ?b then _ else _) = _ => destruct b; [inversion H; subst; auto; fail|] end).
  destruct (Ascii.eqb c "(").
  { destruct x as [|d x]; [inversion H; subst; auto|]. cbn [app].
    destruct (Ascii.eqb d "?"); [apply flags_app; auto|inversion H; subst; auto]. }
  destruct (Ascii.eqb c "[").
  { destruct x as [|d x]; [discriminate|]. cbn [app].
    destruct (Ascii.eqb d "^").
    - destruct (class_items (S (length x)) true x []) as [[rs z]|] eqn:E; [|discriminate].
      rewrite (class_items_app _ _ _ _ _ _ [")"%char] E) by (rewrite app_length; simpl; lia).
      inversion H; subst; auto.
    - destruct (class_items (S (length (d :: x))) true (d :: x) []) as [[rs z]|] eqn:E; [|discriminate].
      change (d :: x ++ [")"%char]) with ((d :: x) ++ [")"%char]).
      rewrite (class_items_app _ _ _ _ _ _ [")"%char] E) by (rewrite app_length; simpl; lia).
      inversion H; subst; auto. }
  do 3 (match type of H with (if ?b then _ else _) = _ => destruct b;
    [rewrite lazy_mark_app; destruct (lazy_mark x); simpl; inversion H; subst; auto; fail|] end).
  destruct (Ascii.eqb c "{").
  { rewrite rep_bounds_app. destruct (rep_bounds x) as [[[a b] z]|].
    - rewrite lazy_mark_app. destruct (lazy_mark z); simpl. inversion H; subst; auto.
    - inversion H; subst; auto. }
  inversion H; subst; auto.
Qed.

Lemma take_digits_le : forall x, (length (snd (take_digits x)) <= length x)%nat.
Proof.
  induction x as [|c x IH]; simpl; auto. destruct (is_digit c); simpl; auto.
  destruct (take_digits x); simpl in *; lia.
Qed.

Lemma rep_bounds_le : forall x a b y, rep_bounds x = Some (a, b, y) -> (length y <= length x)%nat.
Proof.
  intros x a b y H. unfold rep_bounds in H. pose proof (take_digits_le x) as L.
  destruct (take_digits x) as [d r]. simpl in L. destruct d; [discriminate|].
  destruct r as [|c r]; [discriminate|]. simpl in L.
  destruct (Ascii.eqb c "}"); [inversion H; subst; lia|].
  destruct (Ascii.eqb c ","); [|discriminate].
  pose proof (take_digits_le r) as L2. destruct (take_digits r) as [d2 r2]. simpl in L2.
  destruct r2 as [|e r2]; [discriminate|]. simpl in L2. destruct (Ascii.eqb e "}"); [|discriminate].
  destruct d2; [inversion H; subst; lia|]. destruct (Nat.leb _ _); [|discriminate]. inversion H; subst; lia.
Qed.

Lemma lazy_mark_le : forall x, (length (snd (lazy_mark x)) <= length x)%nat.
Proof. intros [|c x]; simpl; auto. destruct (Ascii.eqb c "?"); simpl; lia. Qed.

Lemma class_items_le : forall f first x acc rs y, class_items f first x acc = Some (rs, y) ->
  (length y <= length x)%nat.
Proof.
  induction f as [|f IH]; intros first x acc rs y H; [discriminate|].
  destruct x as [|c x]; [discriminate|]. cbn [class_items] in H.
  destruct (Ascii.eqb c "]" && negb first); [inversion H; subst; simpl; lia|].
  match type of H with match ?m with _ => _ end = _ => destruct m as [[r z]|] eqn:E end.
  - apply IH in H.
    destruct (Ascii.eqb c "\").
    + destruct x as [|d x]; [discriminate|]. destruct (class_escape d); [|discriminate].
      inversion E; subst. simpl. lia.
    + destruct (Ascii.eqb c "[" && has_prefix (bs ":") x); [|discriminate].
      apply find_posix_shorter in E. destruct x; simpl in *; lia.
  - destruct (Ascii.eqb c "[" && has_prefix (bs ":") x); [discriminate|].
    destruct (class_char (c :: x)) as [[lo z]|] eqn:Ec; [|discriminate].
    apply class_char_shorter in Ec. destruct z as [|d z]; [discriminate|].
    destruct (Ascii.eqb d "-").
    + destruct z as [|e z]; [discriminate|]. destruct (Ascii.eqb e "]").
      * apply IH in H. simpl in *; lia.
      * destruct (class_char (e :: z)) as [[hi w]|] eqn:Eh; [|discriminate].
        apply class_char_shorter in Eh. destruct (cle lo hi); [|discriminate].
        apply IH in H. simpl in *; lia.
    + apply IH in H. simpl in *; lia.
Qed.

Lemma lex1_shorter : forall x t y, lex1 x = Some (t, y) -> (length y < length x)%nat.
Proof.
  intros [|c x] t y H; [discriminate|]. unfold lex1 in H.
  destruct (Ascii.eqb c "\").
  { destruct x as [|d x]; [discriminate|].
    destruct (class_escape d); [inversion H; subst; simpl; lia|].
    destruct (assert_escape d); [inversion H; subst; simpl; lia|].
    destruct (char_escape (d :: x)) as [[e z]|] eqn:E; [|discriminate].
    apply char_escape_shorter in E. inversion H; subst; simpl in *; lia. }
  do 5 (match type of H with (if ?b then _ else _) = _ => destruct b; [inversion H; subst; simpl; lia|] end).
  destruct (Ascii.eqb c "(").
  { destruct x as [|d x]; [inversion H; subst; simpl; lia|].
    destruct (Ascii.eqb d "?"); [apply flags_shorter in H; simpl; lia|inversion H; subst; simpl; lia]. }
  destruct (Ascii.eqb c "[").
  { destruct x as [|d x]; [discriminate|].
    destruct (Ascii.eqb d "^").
    - destruct (class_items (S (length x)) true x []) as [[rs z]|] eqn:E; [|discriminate].
      apply class_items_le in E. inversion H; subst; simpl; lia.
    - destruct (class_items (S (length (d :: x))) true (d :: x) []) as [[rs z]|] eqn:E; [|discriminate].
      apply class_items_le in E. inversion H; subst; simpl in *; lia. }
  pose proof (lazy_mark_le x) as L.
  do 3 (match type of H with (if ?b then _ else _) = _ => destruct b;
    [destruct (lazy_mark x); simpl in *; inversion H; subst; lia|] end).
  destruct (Ascii.eqb c "{").
  { destruct (rep_bounds x) as [[[a b] z]|] eqn:E.
    - apply rep_bounds_le in E. pose proof (lazy_mark_le z). destruct (lazy_mark z). inversion H; subst; simpl in *; lia.
    - inversion H; subst; simpl; lia. }
  inversion H; subst; simpl; lia.
Qed.

Lemma lex_app : forall n x ts, lex n x = Some ts ->
  forall m, (length x < m)%nat -> lex m (x ++ [")"%char]) = Some (ts ++ [KClose]).
Proof.
  induction n as [|n IH]; intros x ts H m Hm.
  - destruct x; [|discriminate]. inversion H; subst. destruct m; [simpl in Hm; lia|]. destruct m; reflexivity.
  - destruct x as [|c x].
    + inversion H; subst. destruct m; [simpl in Hm; lia|]. destruct m; reflexivity.
    + cbn [lex] in H. destruct (lex1 (c :: x)) as [[t y]|] eqn:E; [|discriminate].
      destruct (lex n y) as [ts'|] eqn:F; [|discriminate]. inversion H; subst.
      pose proof (lex1_shorter _ _ _ E) as L. apply lex1_app in E.
      destruct m as [|m]; [lia|]. cbn [app] in *. cbn [lex]. rewrite E.
      rewrite (IH _ _ F) by (simpl in *; lia). auto.
Qed.

(** Two runs of the stack machine on the same tokens, the second started inside group 1. *)
Definition fsim (a b : frame) : Prop := f_cur a = [] <-> f_cur b = [].
Definition psim (bot : list frame) (a b : pstate) : Prop :=
  exists stk, p_stk b = stk ++ bot /\ Forall2 fsim (p_stk a) stk /\
    fsim (p_cur a) (p_cur b) /\ p_next b = S (p_next a) /\ p_rep a = p_rep b /\
    f_grp (last stk (p_cur b)) = Some 1%nat.

Lemma last_cons : forall {A} (x d : A) l, last (x :: l) d = last l x.
Proof. intros A x d l. revert x d. induction l as [|y l IH]; intros; auto. simpl in *. destruct l; auto. Qed.

Lemma last_grp : forall stk x y, f_grp x = f_grp y -> f_grp (last stk x) = f_grp (last stk y).
Proof. intros [|f stk] x y H; auto. rewrite !last_cons. auto. Qed.

Lemma pstep_sim : forall bot t a b a', psim bot a b -> pstep t a = Some a' ->
  exists b', pstep t b = Some b' /\ psim bot a' b'.
Proof.
  intros bot t a b a' (stk & E & F & C & N & R & G) H.
  assert (Mk : forall stk' a1 b1, p_stk b1 = stk' ++ bot -> Forall2 fsim (p_stk a1) stk' ->
     fsim (p_cur a1) (p_cur b1) -> p_next b1 = S (p_next a1) -> p_rep a1 = p_rep b1 ->
     f_grp (last stk' (p_cur b1)) = Some 1%nat -> psim bot a1 b1).
  { intros stk' a1 b1 ? ? ? ? ? ?. exists stk'. auto 10. }
  assert (Push : forall r r', psim bot (push r a) (push r' b)).
  { intros r r'. apply (Mk stk); auto.
    - split; discriminate.
    - rewrite <- G. apply last_grp. auto. }
  destruct t; simpl in H; try (inversion H; subst; eexists; split; [reflexivity|auto]; fail).
  - inversion H; subst; eexists; split; [reflexivity|].
    apply (Mk (p_cur b :: stk)); simpl; auto.
    + rewrite E; auto.
    + unfold fsim; simpl; tauto.
    + destruct stk; auto. rewrite !last_cons in *. auto.
  - inversion H; subst; eexists; split; [reflexivity|].
    apply (Mk (p_cur b :: stk)); simpl; auto.
    + rewrite E; auto.
    + unfold fsim; simpl; tauto.
    + destruct stk; auto. rewrite !last_cons in *. auto.
  - inversion H; subst; eexists; split; [reflexivity|].
    apply (Mk stk); simpl; auto. rewrite <- G. apply last_grp. auto.
  - (* close *)
    destruct (p_stk a) as [|up up'] eqn:Ea; [discriminate|].
    inversion F as [|x y l l' Fx Fl]; subst. inversion H; subst.
    simpl. rewrite E. simpl. eexists; split; [reflexivity|].
    apply (Mk l'); simpl; auto.
    + split; discriminate.
    + rewrite last_cons in G. rewrite <- G. apply last_grp. auto.
  - inversion H; subst; eexists; split; [reflexivity|].
    apply (Mk stk); simpl; auto.
    + unfold fsim; simpl; tauto.
    + rewrite <- G. apply last_grp. auto.
  - destruct (p_rep a) eqn:Er; [discriminate|].
    destruct (f_cur (p_cur a)) as [|r l] eqn:Ec; [discriminate|]. inversion H; subst.
    simpl. rewrite <- R. unfold fsim in C.
    destruct (f_cur (p_cur b)) as [|r' l'] eqn:Ec'.
    { destruct C as [_ C]. rewrite C in Ec by auto. discriminate. }
    eexists; split; [reflexivity|]. apply (Mk stk); simpl; auto.
    + split; discriminate.
    + rewrite <- G. apply last_grp. auto.
Qed.

Lemma prun_sim : forall bot ts a b a', psim bot a b -> prun ts a = Some a' ->
  exists b', prun ts b = Some b' /\ psim bot a' b'.
Proof.
  induction ts as [|t ts IH]; intros a b a' S H; simpl in *.
  - inversion H; subst; eauto.
  - destruct (pstep t a) as [a1|] eqn:E; [|discriminate].
    destruct (pstep_sim _ _ _ _ _ S E) as (b1 & E1 & S1). rewrite E1. eauto.
Qed.

Lemma prun_app : forall ts us s, prun (ts ++ us) s =
  match prun ts s with Some s' => prun us s' | None => None end.
Proof. induction ts; intros; simpl; auto. destruct (pstep a s); auto. Qed.

(** A valid pattern put into the anchored group. *)
Lemma parse_re_group : forall p r n, parse_re p = Some (r, n) ->
  exists r', parse_re (anchor ++ group p) =
    Some (RCat (RAssert ABegText) (RCat (RGroup 1 r') REps), S n).
Proof.
  intros p r n H. unfold parse_re in H.
  destruct (lex (length p) p) as [ts|] eqn:L; [|discriminate].
  destruct (prun ts pinit) as [s|] eqn:R; [|discriminate].
  destruct (p_stk s) eqn:K; [|discriminate]. inversion H; subst; clear H.
  unfold parse_re. rewrite anchor_group_length.
  destruct (lex_anchor (5 + length p) p) as [E|(z & ->)].
  - rewrite E. rewrite (lex_app _ _ _ L) by lia.
    set (bot := [mkF None [RAssert ABegText] None true false]).
    assert (S0 : psim bot pinit in_group).
    { exists []. split; [reflexivity|]. split; [constructor|]. split; [unfold fsim; simpl; tauto|].
      split; [reflexivity|]. split; reflexivity. }
    destruct (prun_sim _ _ _ _ _ S0 R) as (b & Rb & stk & E1 & F & C & N & Rp & G).
    rewrite K in F. inversion F; subst stk. simpl in E1, G.
    change (prun (KFlags (Some true) None :: KAssert ABegText :: KOpen :: ts ++ [KClose]) pinit)
      with (prun (ts ++ [KClose]) in_group).
    rewrite prun_app, Rb. cbn [prun pstep]. rewrite E1. unfold bot. cbn [prun].
    rewrite G. simpl. rewrite N. exists (frame_re (p_cur b)). unfold frame_re, cat_rev; simpl.
    destruct (p_next s) eqn:Es; auto.
    exfalso. clear -R Es.
    assert (forall ts a a', prun ts a = Some a' -> (1 <= p_next a)%nat -> (1 <= p_next a')%nat) as M.
    { clear. induction ts as [|t ts IH]; intros a a' H L; simpl in H; [inversion H; subst; auto|].
      destruct (pstep t a) as [a1|] eqn:E; [|discriminate]. apply (IH _ _ H).
      destruct t; simpl in E; try (inversion E; subst; simpl; lia).
      - destruct (p_stk a); [discriminate|]. inversion E; subst; simpl; lia.
      - destruct (p_rep a); [discriminate|]. destruct (f_cur (p_cur a)); [discriminate|].
        inversion E; subst; simpl; lia. }
    specialize (M _ _ _ R). simpl in M. lia.
  - exfalso. simpl length in L. cbn [lex] in L.
    assert (exists g y, lex1 ("?"%char :: z) = Some (KRep 0 (Some 1%nat) g, y)) as (g & y & E).
    { simpl. destruct (lazy_mark z). eauto. }
    rewrite E in L. destruct (lex (length z) y); [|discriminate]. inversion L; subst. discriminate.
Qed.

Lemma parse_re_lit : forall s, parse_re (anchor ++ group (quote_meta s)) =
  Some (RCat (RAssert ABegText) (RCat (RGroup 1 (lit_re s)) REps), 1%nat).
Proof.
  intros s. unfold parse_re. rewrite anchor_group_length.
  destruct (lex_anchor (5 + length (quote_meta s)) (quote_meta s)) as [E|(z & E)].
  - rewrite E. rewrite lex_quoted by lia.
    destruct (5 + length (quote_meta s) - length s)%nat as [|m] eqn:Em.
    { assert (length s <= length (quote_meta s))%nat; [|lia]. clear.
      induction s as [|c s IH]; simpl; auto. destruct (is_meta c); simpl; lia. }
    assert (Hm : lex (S m) [")"%char] = Some [KClose]) by (destruct m; reflexivity).
    rewrite Hm.
    change (prun (KFlags (Some true) None :: KAssert ABegText :: KOpen ::
              map (fun c => KSet false (lit c)) s ++ [KClose]) pinit)
      with (prun (map (fun c => KSet false (lit c)) s ++ [KClose]) in_group).
    rewrite prun_app, prun_lits, fold_push. simpl.
    unfold frame_re, cat_rev; simpl. rewrite app_nil_r, cat_rev_lits, lit_re_fold. auto.
  - destruct s as [|c s]; [discriminate|]. simpl in E. unfold is_meta in E.
    destruct (existsb (Ascii.eqb c) (bs "\.+*?()|[]{}^$")) eqn:M; inversion E; subst.
    discriminate.
Qed.

(** A later start never passes the text anchor. *)
Lemma search_anchor : forall r rest pos prev, 0 < pos ->
  search (RCat (RAssert ABegText) r) pos prev rest = None.
Proof.
  induction rest as [|c rest IH]; intros pos prev H; simpl; unfold assert_ok; simpl.
  - destruct (Z.eqb_spec pos 0); [lia|auto].
  - destruct (Z.eqb_spec pos 0); [lia|]. apply IH. lia.
Qed.

Lemma search_anchor0 : forall r t,
  search (RCat (RAssert ABegText) r) 0 None t =
  match mt r (mkM 0 None t []) Some with Some st => Some (0, st) | None => None end.
Proof.
  intros r t. destruct t as [|c t]; simpl.
  - destruct (mt r _ Some); auto.
  - destruct (mt r _ Some); auto. apply search_anchor. lia.
Qed.

Theorem regex_engine_ok : engine_ok regex_engine.
Proof.
  constructor.
  - intros p t locs H. simpl in *. destruct (parse_re p) as [[r n]|]; [|discriminate].
    destruct (search r 0 None t) as [[a st]|] eqn:E; [|discriminate].
    assert (locs = (a, mpos st) :: group_locs n (mcaps st)) by congruence. subst locs.
    destruct (search_sound _ _ _ _ _ _ E) as (A & B & C & D).
    exists a, (mpos st), (group_locs n (mcaps st)).
    split; [auto|]. split; [lia|]. split; [lia|]. split; [lia|].
    split; [unfold group_locs; rewrite map_length, seq_length; auto|].
    unfold group_locs. apply Forall_map, Forall_forall. intros i _. unfold loc_ok.
    destruct (cap_get i (mcaps st)) eqn:G; auto. right. eauto.
  - auto.
  - intros s _. unfold regex_engine; cbn [re_valid]. rewrite parse_re_lit. auto.
  - intros s t _. unfold regex_engine; cbn [re_find]. rewrite parse_re_lit. rewrite search_anchor0.
    cbn [mt]. rewrite mt_lit. cbn [mrest mpos mprev mcaps].
    destruct (has_prefix s t); auto.
  - intros p V _. unfold regex_engine in *; cbn [re_valid re_groups] in *. destruct (parse_re p) as [[r n]|] eqn:E; [|discriminate].
    destruct (parse_re_group _ _ _ E) as (r' & E'). rewrite E'. auto.
  - intros p t a b g gs V _ H. unfold regex_engine in *; cbn [re_valid re_find] in *. destruct (parse_re p) as [[r n]|] eqn:E; [|discriminate].
    destruct (parse_re_group _ _ _ E) as (r' & E'). rewrite E' in H.
    rewrite search_anchor0 in H. cbn [mt] in H.
    destruct (mt r' (mkM 0 None t []) _) as [st|] eqn:M; [|discriminate].
    destruct (mt_sound _ _ _ _ M) as (st' & _ & K). cbn in K.
    assert (st = mkM (mpos st') (mprev st') (mrest st') (cap_set 1 (0, mpos st') (mcaps st'))) by congruence.
    subst st. unfold group_locs in H. cbn [mpos mcaps seq map] in H.
    rewrite cap_get_set in H. simpl in H. inversion H; subst. auto.
Qed.
