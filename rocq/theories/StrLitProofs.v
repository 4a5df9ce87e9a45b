(** Proofs about reading literals. *)
From Verif Require Import Base Regex StrLit StrLitSpec.
Local Open Scope char_scope.

(** * Quoted strings *)

Lemma octal_digit : forall c, is_octal c = true -> exists v, octal c v.
Proof.
  intros c H. unfold is_octal, cle in H. apply andb_true_iff in H as [H1 H2].
  apply Nat.leb_le in H1, H2. change (nat_of_ascii "0") with 48%nat in H1.
  change (nat_of_ascii "7") with 55%nat in H2.
  exists (nat_of_ascii c - 48)%nat. split; lia.
Qed.

Lemma digit_octal : forall c v, octal c v -> is_octal c = true.
Proof.
  intros c v [H1 H2]. unfold is_octal, cle. apply andb_true_iff.
  change (nat_of_ascii "0") with 48%nat. change (nat_of_ascii "7") with 55%nat.
  split; apply Nat.leb_le; lia.
Qed.

Lemma octal_val : forall c v, octal c v -> digit_val c = Some (Z.of_nat v).
Proof.
  intros c v [H1 H2]. unfold digit_val. rewrite H2.
  replace ((48 <=? Z.of_nat (48 + v))%Z && (Z.of_nat (48 + v) <=? 57)%Z) with true.
  - f_equal. lia.
  - symmetry. apply andb_true_iff. split; apply Z.leb_le; lia.
Qed.

Lemma val_octal : forall c d, digit_val c = Some d -> (d < 8)%Z -> exists v, octal c v /\ d = Z.of_nat v.
Proof.
  intros c d H L. unfold digit_val in H.
  destruct ((48 <=? Z.of_nat (nat_of_ascii c))%Z && (Z.of_nat (nat_of_ascii c) <=? 57)%Z) eqn:E.
  - apply andb_true_iff in E as [E1 E2]. apply Z.leb_le in E1, E2. inversion H; subst.
    exists (nat_of_ascii c - 48)%nat. unfold octal. lia.
  - destruct ((97 <=? Z.of_nat (nat_of_ascii c))%Z && (Z.of_nat (nat_of_ascii c) <=? 122)%Z) eqn:E'.
    + apply andb_true_iff in E' as [E1 E2]. apply Z.leb_le in E1, E2. inversion H; subst. lia.
    + destruct ((65 <=? Z.of_nat (nat_of_ascii c))%Z && (Z.of_nat (nat_of_ascii c) <=? 90)%Z) eqn:E2; [|discriminate].
      apply andb_true_iff in E2 as [E1 E2]. apply Z.leb_le in E1, E2. inversion H; subst. lia.
Qed.

Ltac far := first [left; apply Nat.ltb_lt; reflexivity | right; apply Nat.ltb_lt; reflexivity].

Lemma octal_not : forall c v e, octal c v -> ((nat_of_ascii e < 48)%nat \/ (55 < nat_of_ascii e)%nat) -> Ascii.eqb c e = false.
Proof. intros c v e [H1 H2] L. apply Ascii.eqb_neq. intros ->. lia. Qed.

Lemma octal_int : forall a b c va vb vc, octal a va -> octal b vb -> octal c vc ->
  parse_int 8 8 [a; b; c] =
  if (64 * va + 8 * vb + vc <? 128)%nat then Some (Z.of_nat (64 * va + 8 * vb + vc)) else None.
Proof.
  intros a b c va vb vc A B C. unfold parse_int.
  rewrite (octal_not a va "+" A), (octal_not a va "-" A) by far.
  simpl digits. rewrite (octal_val _ _ A), (octal_val _ _ B), (octal_val _ _ C).
  destruct A as [A _], B as [B _], C as [C _].
  replace (Z.of_nat va <? 8)%Z with true by (symmetry; apply Z.ltb_lt; lia).
  replace (Z.of_nat vb <? 8)%Z with true by (symmetry; apply Z.ltb_lt; lia).
  replace (Z.of_nat vc <? 8)%Z with true by (symmetry; apply Z.ltb_lt; lia).
  change (2 ^ (8 - 1))%Z with 128%Z.
  match goal with |- context [(?e <? 128)%Z] => replace e with (Z.of_nat (64 * va + 8 * vb + vc)) by lia end.
  destruct (64 * va + 8 * vb + vc <? 128)%nat eqn:E.
  - apply Nat.ltb_lt in E. replace (Z.of_nat (64 * va + 8 * vb + vc) <? 128)%Z with true; auto.
    symmetry. apply Z.ltb_lt. lia.
  - apply Nat.ltb_ge in E. replace (Z.of_nat (64 * va + 8 * vb + vc) <? 128)%Z with false; auto.
    symmetry. apply Z.ltb_ge. lia.
Qed.

(** A successful three-character octal number whose first character is a digit. *)
Lemma int_octal : forall a b c va n, octal a va -> parse_int 8 8 [a; b; c] = Some n ->
  exists vb vc, octal b vb /\ octal c vc /\ (64 * va + 8 * vb + vc < 128)%nat /\ n = Z.of_nat (64 * va + 8 * vb + vc).
Proof.
  intros a b c va n A H. pose proof H as H0. unfold parse_int in H.
  rewrite (octal_not a va "+" A), (octal_not a va "-" A) in H by far.
  simpl digits in H. rewrite (octal_val _ _ A) in H.
  destruct A as [A A']. replace (Z.of_nat va <? 8)%Z with true in H by (symmetry; apply Z.ltb_lt; lia).
  destruct (digit_val b) as [db|] eqn:B; [|discriminate].
  destruct (db <? 8)%Z eqn:B8; [|discriminate]. apply Z.ltb_lt in B8.
  destruct (digit_val c) as [dc|] eqn:C; [|discriminate].
  destruct (dc <? 8)%Z eqn:C8; [|discriminate]. apply Z.ltb_lt in C8.
  apply val_octal in B as (vb & B & ->); auto. apply val_octal in C as (vc & C & ->); auto.
  rewrite (octal_int a b c va vb vc) in H0; auto; [|split; auto].
  destruct (64 * va + 8 * vb + vc <? 128)%nat eqn:E; [|discriminate]. apply Nat.ltb_lt in E.
  inversion H0; subst. exists vb, vc. auto.
Qed.

Lemma to_byte_nat : forall n, (n < 256)%nat -> to_byte (Z.of_nat n) = ascii_of_nat n.
Proof. intros n H. unfold to_byte. rewrite Z.mod_small by lia. now rewrite Nat2Z.id. Qed.

(** The hexadecimal escapes pass the letter itself to the number parser, which rejects it. *)
Lemma hex_fails : forall b bits e rest, In e ["x"; "u"; "U"] -> (b <= 30)%Z -> parse_int b bits (e :: rest) = None.
Proof.
  intros b bits e rest H L. unfold parse_int.
  assert (D : Ascii.eqb e "+" = false /\ Ascii.eqb e "-" = false /\ (digit_val e = Some 33 \/ digit_val e = Some 30)%Z).
  { simpl in H. repeat destruct H as [H|H]; try subst e; try contradiction; vm_compute; auto. }
  destruct D as (-> & -> & D). simpl digits.
  destruct D as [-> | ->];
    [replace (33 <? b)%Z with false by (symmetry; apply Z.ltb_ge; lia)
    |replace (30 <? b)%Z with false by (symmetry; apply Z.ltb_ge; lia)]; reflexivity.
Qed.

Lemma simple_letter : forall q e v, In (e, v) letter_escapes -> simple_escape q e = Some (ascii_of_nat v).
Proof.
  intros q e v H. simpl in H. repeat destruct H as [H|H]; try contradiction; inversion H; subst; reflexivity.
Qed.

Lemma letter_simple : forall q e x, simple_escape q e = Some x ->
  (exists v, In (e, v) letter_escapes /\ x = ascii_of_nat v) \/ (e = q /\ x = q /\ ~ In q (map fst letter_escapes)).
Proof.
  intros q e x H. unfold simple_escape in H.
  destruct (Ascii.eqb_spec e "a"); [left; subst; eexists; split; [simpl; eauto 20|]; inversion H; reflexivity|].
  destruct (Ascii.eqb_spec e "b"); [left; subst; eexists; split; [simpl; eauto 20|]; inversion H; reflexivity|].
  destruct (Ascii.eqb_spec e "f"); [left; subst; eexists; split; [simpl; eauto 20|]; inversion H; reflexivity|].
  destruct (Ascii.eqb_spec e "n"); [left; subst; eexists; split; [simpl; eauto 20|]; inversion H; reflexivity|].
  destruct (Ascii.eqb_spec e "r"); [left; subst; eexists; split; [simpl; eauto 20|]; inversion H; reflexivity|].
  destruct (Ascii.eqb_spec e "t"); [left; subst; eexists; split; [simpl; eauto 20|]; inversion H; reflexivity|].
  destruct (Ascii.eqb_spec e "v"); [left; subst; eexists; split; [simpl; eauto 20|]; inversion H; reflexivity|].
  unfold bslash in *.
  destruct (Ascii.eqb_spec e "\"); [left; subst; eexists; split; [simpl; eauto 20|]; inversion H; reflexivity|].
  destruct (Ascii.eqb_spec e "'"); [left; subst; eexists; split; [simpl; eauto 20|]; inversion H; reflexivity|].
  destruct (Ascii.eqb_spec e q); [|discriminate]. inversion H; subst. right. repeat split; auto.
  simpl. intros F. repeat destruct F as [F|F]; congruence.
Qed.

Lemma letter_plain : forall e v, In (e, v) letter_escapes ->
  Ascii.eqb e "x" = false /\ Ascii.eqb e "u" = false /\ Ascii.eqb e "U" = false /\ is_octal e = false.
Proof.
  intros e v H. simpl in H. repeat destruct H as [H|H]; try contradiction; inversion H; subst; repeat split; reflexivity.
Qed.

Lemma unescape_complete : forall q s x, stands_for q s x -> unescape q s = Some x.
Proof.
  intros q s x H. induction H.
  - reflexivity.
  - simpl. destruct (Ascii.eqb_spec c bslash); [contradiction|]. now rewrite IHstands_for.
  - destruct (letter_plain _ _ H) as (E1 & E2 & E3 & E4).
    change (unescape q ("\" :: e :: body)) with
      (if Ascii.eqb e "x" then match body with h1 :: r => emit (parse_int 16 8 [e; h1]) (unescape q r) | _ => None end
       else if Ascii.eqb e "u" then
         match body with h1 :: h2 :: ((h3 :: _) as r) => emit (parse_int 16 16 [e; h1; h2; h3]) (unescape q r) | _ => None end
       else if Ascii.eqb e "U" then
         match body with
         | h1 :: h2 :: h3 :: h4 :: ((h5 :: h6 :: h7 :: _) as r) =>
             emit (parse_int 16 32 [e; h1; h2; h3; h4; h5; h6; h7]) (unescape q r) | _ => None end
       else if is_octal e then
         match body with o2 :: ((o3 :: _) as r) => emit (parse_int 8 8 [e; o2; o3]) (unescape q r) | _ => None end
       else match simple_escape q e, unescape q body with Some y, Some r => Some (y :: r) | _, _ => None end).
    now rewrite E1, E2, E3, E4, (simple_letter _ _ _ H), IHstands_for.
  - assert (E1 : Ascii.eqb q "x" = false) by (apply Ascii.eqb_neq; intros ->; apply H0; simpl; auto).
    assert (E2 : Ascii.eqb q "u" = false) by (apply Ascii.eqb_neq; intros ->; apply H0; simpl; auto).
    assert (E3 : Ascii.eqb q "U" = false) by (apply Ascii.eqb_neq; intros ->; apply H0; simpl; auto).
    assert (E4 : is_octal q = false).
    { destruct (is_octal q) eqn:O; auto. apply octal_digit in O as [v O]. destruct (H v O). }
    assert (E5 : simple_escape q q = Some q).
    { unfold simple_escape.
      repeat match goal with |- context [Ascii.eqb q ?c] =>
        lazymatch c with q => rewrite Ascii.eqb_refl
        | _ => destruct (Ascii.eqb_spec q c) as [->|_]; [exfalso; apply H1; simpl; tauto|] end end.
      reflexivity. }
    change (unescape q ("\" :: q :: body)) with
      (if Ascii.eqb q "x" then match body with h1 :: r => emit (parse_int 16 8 [q; h1]) (unescape q r) | _ => None end
       else if Ascii.eqb q "u" then
         match body with h1 :: h2 :: ((h3 :: _) as r) => emit (parse_int 16 16 [q; h1; h2; h3]) (unescape q r) | _ => None end
       else if Ascii.eqb q "U" then
         match body with
         | h1 :: h2 :: h3 :: h4 :: ((h5 :: h6 :: h7 :: _) as r) =>
             emit (parse_int 16 32 [q; h1; h2; h3; h4; h5; h6; h7]) (unescape q r) | _ => None end
       else if is_octal q then
         match body with o2 :: ((o3 :: _) as r) => emit (parse_int 8 8 [q; o2; o3]) (unescape q r) | _ => None end
       else match simple_escape q q, unescape q body with Some y, Some r => Some (y :: r) | _, _ => None end).
    now rewrite E1, E2, E3, E4, E5, IHstands_for.
  - set (r := c :: body) in *.
    change (unescape q ("\" :: a :: b :: r)) with
      (if Ascii.eqb a "x" then emit (parse_int 16 8 [a; b]) (unescape q r)
       else if Ascii.eqb a "u" then
         match b :: r with h1 :: h2 :: ((h3 :: _) as r) => emit (parse_int 16 16 [a; h1; h2; h3]) (unescape q r) | _ => None end
       else if Ascii.eqb a "U" then
         match b :: r with
         | h1 :: h2 :: h3 :: h4 :: ((h5 :: h6 :: h7 :: _) as r) =>
             emit (parse_int 16 32 [a; h1; h2; h3; h4; h5; h6; h7]) (unescape q r) | _ => None end
       else if is_octal a then emit (parse_int 8 8 [a; b; c]) (unescape q r)
       else match simple_escape q a, unescape q (b :: r) with Some y, Some r => Some (y :: r) | _, _ => None end).
    rewrite (octal_not a va "x" H), (octal_not a va "u" H), (octal_not a va "U" H) by far.
    rewrite (digit_octal _ _ H), (octal_int a b c va vb vc) by auto.
    replace (64 * va + 8 * vb + vc <? 128)%nat with true by (symmetry; apply Nat.ltb_lt; lia).
    rewrite IHstands_for. unfold emit. rewrite to_byte_nat by lia. reflexivity.
Qed.

Lemma unescape_sound_len : forall n q s x, (length s <= n)%nat -> unescape q s = Some x -> stands_for q s x.
Proof.
  induction n as [|n IH]; intros q s x L H.
  - destruct s; [|simpl in L; lia]. inversion H. constructor.
  - destruct s as [|c s1]; [inversion H; constructor|].
    simpl in L.
    destruct (Ascii.eqb_spec c bslash) as [->|N].
    2:{ simpl in H. destruct (Ascii.eqb_spec c bslash); [contradiction|].
        destruct (unescape q s1) as [r|] eqn:E; [|discriminate]. inversion H; subst.
        constructor; auto. apply IH; auto. lia. }
    destruct s1 as [|e s2]; [discriminate|]. simpl in L.
    destruct (Ascii.eqb_spec e "x") as [->|Nx].
    { simpl in H. destruct s2 as [|h1 r]; [discriminate|].
      change (emit (parse_int 16 8 ["x"; h1]) (unescape q r) = Some x) in H.
      rewrite hex_fails in H; [discriminate| simpl; auto | lia]. }
    destruct (Ascii.eqb_spec e "u") as [->|Nu].
    { destruct s2 as [|h1 [|h2 [|h3 r]]]; discriminate. }
    destruct (Ascii.eqb_spec e "U") as [->|NU].
    { destruct s2 as [|h1 [|h2 [|h3 [|h4 [|h5 [|h6 [|h7 r]]]]]]]; discriminate. }
    apply Ascii.eqb_neq in Nx, Nu, NU.
    destruct (is_octal e) eqn:O.
    { destruct s2 as [|o2 [|o3 r]].
      - cbn [unescape] in H. change (Ascii.eqb bslash bslash) with true in H. cbv iota in H.
        rewrite Nx, Nu, NU, O in H. discriminate.
      - cbn [unescape] in H. change (Ascii.eqb bslash bslash) with true in H. cbv iota in H.
        rewrite Nx, Nu, NU, O in H. discriminate.
      - assert (H' : emit (parse_int 8 8 [e; o2; o3]) (unescape q (o3 :: r)) = Some x).
        { rewrite <- H. cbn [unescape]. change (Ascii.eqb bslash bslash) with true. cbv iota.
          rewrite Nx, Nu, NU, O. reflexivity. }
        unfold emit in H'. destruct (parse_int 8 8 [e; o2; o3]) as [m|] eqn:P; [|discriminate].
        destruct (unescape q (o3 :: r)) as [y|] eqn:E; [|discriminate]. inversion H'; subst.
        apply octal_digit in O as [va O]. destruct (int_octal _ _ _ _ _ O P) as (vb & vc & B & C & LT & ->).
        rewrite to_byte_nat by lia. apply sf_octal; auto. apply IH; auto. simpl in *. lia. }
    assert (H' : match simple_escape q e, unescape q s2 with Some y, Some r => Some (y :: r) | _, _ => None end = Some x).
    { rewrite <- H. cbn [unescape]. change (Ascii.eqb bslash bslash) with true. cbv iota.
      rewrite Nx, Nu, NU, O. reflexivity. }
    destruct (simple_escape q e) as [y|] eqn:S1; [|discriminate].
    destruct (unescape q s2) as [r|] eqn:E; [|discriminate]. inversion H'; subst.
    apply letter_simple in S1 as [(v & V & ->)|(-> & -> & V)].
    + apply sf_letter; auto. apply IH; auto. lia.
    + apply sf_quote.
      * intros v V'. apply digit_octal in V'. congruence.
      * simpl. intros F. apply Ascii.eqb_neq in Nx, Nu, NU. repeat destruct F as [F|F]; congruence.
      * exact V.
      * apply IH; auto. lia.
Qed.

Lemma unescape_iff : forall q s x, unescape q s = Some x <-> stands_for q s x.
Proof.
  intros q s x. split; [now apply (unescape_sound_len (length s))|apply unescape_complete].
Qed.

Lemma removelast_snoc : forall A (l : list A) x, removelast (l ++ [x]) = l.
Proof. intros. rewrite removelast_app by discriminate. simpl. apply app_nil_r. Qed.

Lemma parse_quoted : forall q body e, q <> "`" -> parse_string (q :: body ++ [e]) = unescape q body.
Proof.
  intros q body e N. unfold parse_string. destruct (body ++ [e]) as [|b r] eqn:E; [now destruct body|].
  simpl tl. rewrite <- E, removelast_snoc.
  now rewrite (proj2 (Ascii.eqb_neq q bquote) N).
Qed.

Lemma parse_quoted_iff : forall q body e x, q <> "`" ->
  (parse_string (q :: body ++ [e]) = Some x <-> stands_for q body x).
Proof. intros. rewrite parse_quoted by auto. apply unescape_iff. Qed.

Lemma stands_for_det : forall q s x y, stands_for q s x -> stands_for q s y -> x = y.
Proof. intros q s x y H1 H2. apply unescape_iff in H1, H2. congruence. Qed.

Lemma quoted_roundtrip : forall q x, q = """" \/ q = "'" -> parse_string (written_quoted q x) = Some x.
Proof.
  intros q x Q. unfold written_quoted. rewrite parse_quoted by (destruct Q; subst; discriminate).
  apply unescape_complete. induction x as [|c x IH]; [constructor|].
  simpl. destruct (Ascii.eqb_spec c "\") as [->|N]; simpl.
  - apply (sf_letter _ _ 92%nat); auto. simpl. tauto.
  - destruct (Ascii.eqb_spec c q) as [->|Nq]; simpl; [|constructor; auto].
    destruct Q as [-> | ->].
    + apply sf_quote.
      * intros v [V1 V2]. change (nat_of_ascii """") with 34%nat in V2. lia.
      * simpl. intros F. repeat destruct F as [F|F]; try discriminate; auto.
      * simpl. intros F. repeat destruct F as [F|F]; try discriminate; auto.
      * exact IH.
    + apply (sf_letter _ _ 39%nat); auto. simpl. tauto.
Qed.

(** Back quotes. *)
Lemma undouble_written : forall x,
  undouble (flat_map (fun c => if Ascii.eqb c "`" then ["`"; "`"] else [c]) x) = x.
Proof.
  induction x as [|c x IH]; auto.
  simpl. destruct (Ascii.eqb_spec c "`") as [->|N].
  - simpl. now rewrite IH.
  - simpl app. remember (flat_map (fun c => if Ascii.eqb c "`" then ["`"; "`"] else [c]) x) as w.
    simpl. apply Ascii.eqb_neq in N. unfold bquote. rewrite N. simpl.
    destruct w; [now rewrite <- IH | now rewrite IH].
Qed.

Lemma raw_roundtrip : forall x, parse_string (written_raw x) = Some x.
Proof.
  intro x. unfold written_raw, parse_string.
  destruct (flat_map (fun c => if Ascii.eqb c "`" then ["`"; "`"] else [c]) x ++ ["`"]) as [|b r] eqn:E.
  - destruct (flat_map (fun c => if Ascii.eqb c "`" then ["`"; "`"] else [c]) x); discriminate.
  - simpl tl. rewrite <- E, removelast_snoc. simpl. now rewrite undouble_written.
Qed.

(** * Numeric escapes *)

Lemma hex_panics : forall q e body, In e ["x"; "u"; "U"] -> q <> "`" -> forall last,
  parse_string (q :: ("\" :: e :: body) ++ [last]) = None.
Proof.
  intros q e body H Q last. destruct (parse_string (q :: ("\" :: e :: body) ++ [last])) as [x|] eqn:P; auto.
  apply parse_quoted_iff in P; auto. exfalso.
  inversion P; subst.
  - now apply H2.
  - apply letter_plain in H2 as (E1 & E2 & E3 & _). apply Ascii.eqb_neq in E1, E2, E3.
    simpl in H. repeat destruct H as [H|H]; congruence.
  - contradiction.
  - destruct H2 as [V1 V2]. simpl in H.
    repeat destruct H as [H|H]; try subst e; try contradiction; vm_compute in V2; lia.
Qed.

(** Three octal digits: a byte and the last digit again, or a panic. *)
Lemma octal_escape : forall q a b c va vb vc body last, q <> "`" -> octal a va -> octal b vb -> octal c vc ->
  parse_string (q :: ("\" :: a :: b :: c :: body) ++ [last]) =
  if (64 * va + 8 * vb + vc <? 128)%nat
  then option_map (fun x => ascii_of_nat (64 * va + 8 * vb + vc) :: c :: x) (parse_string (q :: body ++ [last]))
  else None.
Proof.
  intros q a b c va vb vc body last Q A B C. rewrite !parse_quoted by auto.
  set (r := c :: body).
  change (unescape q ("\" :: a :: b :: r)) with
    (if Ascii.eqb a "x" then emit (parse_int 16 8 [a; b]) (unescape q r)
     else if Ascii.eqb a "u" then
       match b :: r with h1 :: h2 :: ((h3 :: _) as r) => emit (parse_int 16 16 [a; h1; h2; h3]) (unescape q r) | _ => None end
     else if Ascii.eqb a "U" then
       match b :: r with
       | h1 :: h2 :: h3 :: h4 :: ((h5 :: h6 :: h7 :: _) as r) =>
           emit (parse_int 16 32 [a; h1; h2; h3; h4; h5; h6; h7]) (unescape q r) | _ => None end
     else if is_octal a then emit (parse_int 8 8 [a; b; c]) (unescape q r)
     else match simple_escape q a, unescape q (b :: r) with Some y, Some r => Some (y :: r) | _, _ => None end).
  rewrite (octal_not a va "x" A), (octal_not a va "u" A), (octal_not a va "U" A) by far.
  rewrite (digit_octal _ _ A), (octal_int a b c va vb vc) by auto.
  destruct (64 * va + 8 * vb + vc <? 128)%nat eqn:E; [|reflexivity]. apply Nat.ltb_lt in E.
  unfold r. simpl unescape. rewrite (octal_not c vc bslash C) by far.
  destruct (unescape q body); simpl; auto. rewrite to_byte_nat by lia. reflexivity.
Qed.

(** * Regexps *)

(** One pass over the pieces: [lead] tells whether a character that is not a backslash is
    still free to start a match. *)
Fixpoint pass (lead : bool) (ps : list piece) : list piece :=
  match ps with
  | [] => []
  | Pair c :: ps' =>
      if Ascii.eqb c "_" then
        if lead then Plain " " :: pass false ps' else Pair c :: pass true ps'
      else if Ascii.eqb c "\" then Pair c :: pass lead ps'
      else Pair c :: pass true ps'
  | p :: ps' => p :: pass true ps'
  end.

Lemma pass_pass : forall ps l1 l2, (l1 = false -> l2 = true) -> pass l2 (pass l1 ps) = map spaced ps.
Proof.
  induction ps as [|p ps IH]; intros l1 l2 H; auto.
  destruct p as [c|c|]; simpl.
  - rewrite IH; auto.
  - destruct (Ascii.eqb_spec c "_") as [->|N].
    + destruct l1; simpl.
      * rewrite IH; auto.
      * rewrite H by auto. rewrite IH; [reflexivity|discriminate].
    + destruct (Ascii.eqb_spec c "\") as [->|N2].
      * simpl. rewrite IH; auto.
      * simpl. apply Ascii.eqb_neq in N, N2. rewrite N, N2. rewrite IH; auto.
  - rewrite IH; auto.
Qed.

Lemma pass_proper : forall ps l, proper ps -> proper (pass l ps).
Proof.
  induction ps as [|p ps IH]; intros l P; auto.
  destruct p as [c|c|]; simpl in *.
  - destruct P; auto.
  - destruct (Ascii.eqb c "_"); [destruct l; simpl; auto; split; auto; discriminate|].
    destruct (Ascii.eqb c "\"); simpl; auto.
  - subst. reflexivity.
Qed.

(** Every text is a list of pieces. *)
Lemma pieces_exist_len : forall n s, (length s <= n)%nat -> exists ps, proper ps /\ pieces_text ps = s.
Proof.
  induction n as [|n IH]; intros s L.
  - destruct s; [|simpl in L; lia]. exists []. simpl. auto.
  - destruct s as [|c s]; [exists []; simpl; auto|]. simpl in L.
    destruct (Ascii.eqb_spec c "\") as [->|N].
    + destruct s as [|d s]; [exists [Last]; simpl; auto|].
      destruct (IH s) as (ps & P & T); [simpl in L; lia|]. exists (Pair d :: ps). split; [exact P|]. rewrite <- T. reflexivity.
    + destruct (IH s) as (ps & P & T); [lia|]. exists (Plain c :: ps). split; [split; auto|]. rewrite <- T. reflexivity.
Qed.

Lemma pieces_exist : forall s, exists ps, proper ps /\ pieces_text ps = s.
Proof. intro s. apply (pieces_exist_len (length s)). lia. Qed.

(** The pairs of backslashes at the front of a list of pieces. *)
Fixpoint slashes (n : nat) : list piece := match n with O => [] | S n => Pair "\" :: slashes n end.

Lemma escaped_tail_pieces : forall ps p r, proper ps -> escaped_tail (pieces_text ps) = Some (p, r) ->
  exists n ps', ps = slashes n ++ Pair "_" :: ps' /\ p = pieces_text (slashes n) /\ r = pieces_text ps'.
Proof.
  induction ps as [|x ps IH]; intros p r P H; [discriminate|].
  destruct x as [c|c|]; simpl in P.
  - destruct P as [N P]. 
    change (escaped_tail (c :: pieces_text ps) = Some (p, r)) in H. simpl in H.
    destruct (pieces_text ps); [discriminate|].
    unfold bslash in H. apply Ascii.eqb_neq in N. rewrite N in H. discriminate.
  - simpl in H. destruct (Ascii.eqb_spec c "_") as [->|N].
    + inversion H; subst. exists O, ps. repeat split.
    + unfold bslash in H. destruct (Ascii.eqb_spec c "\") as [->|N2]; [|discriminate].
      fold (pieces_text ps) in H. destruct (escaped_tail (pieces_text ps)) as [[p' r']|] eqn:E; [|discriminate].
      inversion H; subst. destruct (IH _ _ P eq_refl) as (n & ps' & -> & -> & ->).
      exists (S n), ps'. repeat split.
  - subst. discriminate.
Qed.

Lemma escaped_tail_slashes : forall n ps, escaped_tail (pieces_text (slashes n ++ Pair "_" :: ps)) =
  Some (pieces_text (slashes n), pieces_text ps).
Proof.
  induction n as [|n IH]; intro ps; [reflexivity|].
  simpl. fold (pieces_text (slashes n ++ Pair "_" :: ps)). rewrite IH. reflexivity.
Qed.

Lemma pieces_text_app : forall a b, pieces_text (a ++ b) = pieces_text a ++ pieces_text b.
Proof. intros. apply flat_map_app. Qed.

Lemma pass_slashes : forall n l ps, pass l (slashes n ++ ps) = slashes n ++ pass l ps.
Proof. induction n as [|n IH]; intros; simpl; auto. now rewrite IH. Qed.

(** No match at the front: what the pass does does not depend on the free character. *)
Lemma pass_nolead : forall ps l, proper ps -> escaped_tail (pieces_text ps) = None -> pass l ps = pass false ps.
Proof.
  induction ps as [|x ps IH]; intros l P H; auto.
  destruct x as [c|c|]; simpl in *; auto.
  destruct (Ascii.eqb_spec c "_") as [->|N]; [discriminate|].
  unfold bslash in H. destruct (Ascii.eqb_spec c "\") as [->|N2]; auto.
  fold (pieces_text ps) in H. rewrite (IH l); auto.
  destruct (escaped_tail (pieces_text ps)) as [[? ?]|]; [discriminate|auto].
Qed.

(** Starting a match: with a free character in front, the whole match is taken at once. *)
Lemma pass_lead : forall ps p r, proper ps -> escaped_tail (pieces_text ps) = Some (p, r) ->
  exists ps', r = pieces_text ps' /\ proper ps' /\ (length (pieces_text ps') < length (pieces_text ps))%nat /\
    pieces_text (pass true ps) = p ++ " " :: pieces_text (pass false ps').
Proof.
  intros ps p r P H. destruct (escaped_tail_pieces ps p r P H) as (n & ps' & -> & -> & ->).
  exists ps'. split; auto. split; [|split].
  - clear H. induction n; simpl in P; auto.
  - rewrite pieces_text_app, app_length. simpl. lia.
  - rewrite pass_slashes, pieces_text_app. reflexivity.
Qed.

Lemma unspace_pass_len : forall fuel ps start, proper ps -> (length (pieces_text ps) <= fuel)%nat ->
  unspace_from fuel start (pieces_text ps) = pieces_text (pass start ps).
Proof.
  induction fuel as [|fuel IH]; intros ps start P L.
  - destruct ps as [|[]]; simpl in L; try lia. reflexivity.
  - (* a character that is not a backslash, then the rest *)
    assert (Lead : forall c ps0, proper ps0 -> c <> "\" -> (length (c :: pieces_text ps0) <= S fuel)%nat ->
      match (if Ascii.eqb c bslash then None else escaped_tail (pieces_text ps0)) with
      | Some (p, r) => c :: p ++ " " :: unspace_from fuel false r
      | None => c :: unspace_from fuel false (pieces_text ps0)
      end = c :: pieces_text (pass true ps0)).
    { intros c ps0 P0 N L0. unfold bslash. apply Ascii.eqb_neq in N. rewrite N. simpl in L0.
      destruct (escaped_tail (pieces_text ps0)) as [[p r]|] eqn:E.
      - destruct (pass_lead _ _ _ P0 E) as (ps' & -> & P' & L' & ->). rewrite IH; auto. lia.
      - rewrite (pass_nolead ps0 true P0 E). rewrite IH; auto. lia. }
    (* the remainder when no match starts at the front *)
    assert (Rest : forall start, escaped_tail (pieces_text ps) = None \/ start = false ->
      match pieces_text ps with
      | [] => []
      | c :: s1 =>
          match (if Ascii.eqb c bslash then None else escaped_tail s1) with
          | Some (p, r) => c :: p ++ " " :: unspace_from fuel false r
          | None => c :: unspace_from fuel false s1
          end
      end = pieces_text (pass start ps)).
    { intros st Hst. assert (E : pass st ps = pass false ps).
      { destruct Hst as [Hst| ->]; auto. now apply pass_nolead. }
      rewrite E. clear Hst E st.
      destruct ps as [|[c|c|] ps0]; simpl in P.
      - reflexivity.
      - destruct P as [N P]. change (pieces_text (Plain c :: ps0)) with (c :: pieces_text ps0) in *.
        apply (Lead c ps0 P N L).
      - change (pieces_text (Pair c :: ps0)) with ("\" :: c :: pieces_text ps0) in *.
        unfold bslash. change (Ascii.eqb "\" "\") with true. cbv iota.
        destruct (Ascii.eqb_spec c "\") as [->|N].
        + (* a pair of backslashes: the second one starts nothing either *)
          change (pass false (Pair "\" :: ps0)) with (Pair "\" :: pass false ps0).
          change (pieces_text (Pair "\" :: pass false ps0)) with ("\" :: "\" :: pieces_text (pass false ps0)).
          f_equal. destruct fuel as [|fuel']; [simpl in L; lia|].
          simpl. f_equal.
          assert (Q : forall n m s, (length s <= n)%nat -> (length s <= m)%nat -> unspace_from n false s = unspace_from m false s).
          { clear. induction n as [|n IHn]; intros m s Ln Lm.
            - destruct s; [|simpl in Ln; lia]. destruct m; reflexivity.
            - destruct m as [|m]; [destruct s; [reflexivity|simpl in Lm; lia]|].
              simpl. destruct s as [|c s]; auto. simpl in Ln, Lm.
              assert (T : forall p r, escaped_tail s = Some (p, r) -> (length r <= length s)%nat).
              { intros p r E. destruct (pieces_exist s) as (qs & Pq & Tq). subst s.
                destruct (escaped_tail_pieces _ _ _ Pq E) as (k & qs' & -> & _ & ->).
                rewrite pieces_text_app, app_length. simpl. lia. }
              destruct (if Ascii.eqb c bslash then None else escaped_tail s) as [[p r]|] eqn:E.
              + assert (escaped_tail s = Some (p, r)) by (destruct (Ascii.eqb c bslash); [discriminate|auto]).
                pose proof (T _ _ H). rewrite (IHn m r); auto; lia.
              + rewrite (IHn m s); auto; lia. }
          rewrite (Q fuel' (S fuel')); [|simpl in L; lia|simpl in L; lia].
          apply IH; auto. simpl in L. lia.
        + (* another pair: its second character is free to start a match *)
          assert (R : unspace_from fuel false (c :: pieces_text ps0) = c :: pieces_text (pass true ps0)).
          { change (c :: pieces_text ps0) with (pieces_text (Plain c :: ps0)).
            rewrite IH; [reflexivity|simpl; auto|simpl in *; lia]. }
          rewrite R. simpl. destruct (Ascii.eqb_spec c "_") as [->|N2]; [reflexivity|].
          apply Ascii.eqb_neq in N. rewrite N. reflexivity.
      - subst ps0. simpl. destruct fuel; reflexivity. }
    simpl. destruct start; [|apply Rest; auto].
    destruct (escaped_tail (pieces_text ps)) as [[p r]|] eqn:E; [|apply Rest; auto].
    destruct (pass_lead _ _ _ P E) as (ps' & -> & P' & L' & ->). rewrite IH; auto. lia.
Qed.

Lemma unspace_pass : forall ps, proper ps -> unspace (pieces_text ps) = pieces_text (pass true ps).
Proof. intros ps P. unfold unspace. apply unspace_pass_len; auto. Qed.

Lemma unspace_twice : forall ps, proper ps -> unspace (unspace (pieces_text ps)) = pieces_text (map spaced ps).
Proof.
  intros ps P. rewrite (unspace_pass ps P), unspace_pass by (now apply pass_proper).
  rewrite pass_pass; auto.
Qed.

Lemma has_prefix_false_cons : forall p s, has_prefix p s = false -> forall r, s <> p ++ r.
Proof. intros p s H r E. assert (has_prefix p s = true) by (apply has_prefix_iff; eauto). congruence. Qed.

(** What a regexp literal means. *)
Lemma regexp_pieces : forall x ps, proper ps -> strip_space x = pieces_text ps ->
  parse_regexp x =
  let y := pieces_text (map spaced ps) in
  if has_prefix (bs "/{") y then
    match y with _ :: _ :: (_ :: _) as r => Some (removelast (tl (tl y))) | _ => None end
  else Some y.
Proof. intros x ps P E. unfold parse_regexp. rewrite E, unspace_twice by auto. reflexivity. Qed.

Lemma regexp_bare : forall x ps, proper ps -> strip_space x = pieces_text ps ->
  (forall r, pieces_text (map spaced ps) <> "/" :: "{" :: r) ->
  parse_regexp x = Some (pieces_text (map spaced ps)).
Proof.
  intros x ps P E N. rewrite (regexp_pieces x ps P E). cbv zeta.
  destruct (has_prefix (bs "/{") (pieces_text (map spaced ps))) eqn:H; auto.
  apply has_prefix_iff in H as [r H]. exfalso. apply (N r). exact H.
Qed.

Lemma spaced_app : forall a b, map spaced (a ++ b) = map spaced a ++ map spaced b.
Proof. intros. apply map_app. Qed.

Lemma proper_app : forall a b, proper a -> ~ In Last a -> proper b -> proper (a ++ b).
Proof.
  induction a as [|p a IH]; intros b Pa L Pb; auto.
  destruct p; simpl in *.
  - destruct Pa. split; auto.
  - apply IH; auto.
  - exfalso. apply L. auto.
Qed.

Lemma regexp_braced : forall x ps, proper ps -> ~ In Last ps ->
  strip_space x = bs "/{" ++ pieces_text ps ++ bs "}" ->
  parse_regexp x = Some (pieces_text (map spaced ps)).
Proof.
  intros x ps P L E.
  assert (E' : strip_space x = pieces_text ((Plain "/" :: Plain "{" :: ps) ++ [Plain "}"])).
  { rewrite pieces_text_app. simpl. exact E. }
  rewrite (regexp_pieces x _) with (2 := E').
  - cbv zeta. rewrite spaced_app, pieces_text_app. simpl map.
    change (pieces_text (Plain "/" :: Plain "{" :: map spaced ps) ++ pieces_text [Plain "}"])
      with ("/" :: "{" :: (pieces_text (map spaced ps) ++ ["}"])).
    simpl has_prefix. cbv iota.
    destruct (pieces_text (map spaced ps) ++ ["}"]) as [|b r] eqn:F; [now destruct (pieces_text (map spaced ps))|].
    simpl tl. rewrite <- F, removelast_snoc. reflexivity.
  - apply proper_app.
    + simpl. repeat split; auto; discriminate.
    + simpl. intros [F|[F|F]]; try discriminate; auto.
    + simpl. split; auto. discriminate.
Qed.

Lemma is_space_blank : forall c, is_space c = true <-> blank c.
Proof.
  intros c. unfold blank. split.
  - destruct c as [[] [] [] [] [] [] [] []]; vm_compute; intro H; try discriminate; tauto.
  - destruct c as [[] [] [] [] [] [] [] []]; intro H; try reflexivity; exfalso; vm_compute in H;
      repeat (destruct H as [H|H]; [discriminate|]); contradiction.
Qed.
Lemma unblanked_strip : forall x y, unblanked x y -> strip_space x = y.
Proof.
  induction 1 as [|c x y B H IH|c x y B H IH]; auto; unfold strip_space in *; simpl.
  - apply is_space_blank in B. rewrite B. exact IH.
  - destruct (is_space c) eqn:E; [apply is_space_blank in E; contradiction|]. simpl. now rewrite IH.
Qed.
Lemma regexp_braced_unblanked : forall x y ps, unblanked x y -> proper ps -> ~ In Last ps ->
  y = bs "/{" ++ pieces_text ps ++ bs "}" ->
  parse_regexp x = Some (pieces_text (map spaced ps)).
Proof. intros x y ps U P L E. apply unblanked_strip in U. apply regexp_braced; auto. congruence. Qed.
Lemma regexp_bare_unblanked : forall x y ps, unblanked x y -> proper ps -> y = pieces_text ps ->
  (forall r, pieces_text (map spaced ps) <> "/" :: "{" :: r) ->
  parse_regexp x = Some (pieces_text (map spaced ps)).
Proof. intros x y ps U P E N. apply unblanked_strip in U. apply regexp_bare; auto. congruence. Qed.
Lemma unblanked_total : forall x, exists y, unblanked x y.
Proof.
  induction x as [|c x (y & IH)]; [exists []; constructor|].
  destruct (is_space c) eqn:E.
  - exists y. apply ub_drop; auto. now apply is_space_blank.
  - exists (c :: y). apply ub_keep; auto. intro B. apply is_space_blank in B. congruence.
Qed.
Lemma regexp_readings : forall x, exists y ps, unblanked x y /\ proper ps /\ pieces_text ps = y.
Proof. intros x. destruct (unblanked_total x) as (y & U). destruct (pieces_exist y) as (ps & P & E). eauto. Qed.
