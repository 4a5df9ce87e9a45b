(** Proofs about cleaned, joined and resolved paths. *)
From Verif Require Import Base Paths PathSpec.
Local Open Scope string_scope.
Local Open Scope list_scope.

Lemma append_nil : forall s, (s ++ "")%string = s.
Proof. induction s as [|c s IH]; cbn; congruence. Qed.
Lemma append_assoc : forall a b c, ((a ++ b) ++ c)%string = (a ++ (b ++ c))%string.
Proof. induction a as [|x a IH]; intros; cbn; congruence. Qed.

(** ** Parts *)
Lemma travel_parts : forall p here w, travel here w p = match parts p with x :: xs => fold_left enter xs (enter here (w ++ x)%string) | [] => here end.
Proof.
  induction p as [|c p IH]; intros here w; cbn [travel parts]; [cbn; now rewrite append_nil|].
  destruct (ascii_dec c "/") as [->|N].
  - change (Ascii.eqb "/" "/") with true. cbn [fold_left]. rewrite IH, append_nil. destruct (parts p) as [|x xs]; reflexivity.
  - apply Ascii.eqb_neq in N. rewrite N, IH. destruct (parts p) as [|x xs] eqn:E.
    + exfalso. destruct p as [|d p]; cbn in E; [discriminate|]. destruct (Ascii.eqb d "/"); [discriminate|]. destruct (parts p); discriminate.
    + f_equal. f_equal. rewrite append_assoc. reflexivity.
Qed.
Lemma parts_nonempty : forall p, parts p <> [].
Proof. destruct p as [|c p]; cbn; [discriminate|]. destruct (Ascii.eqb c "/"); [discriminate|]. destruct (parts p); discriminate. Qed.
Lemma below_parts : forall here p, below here p = fold_left enter (parts p) here.
Proof.
  intros here p. unfold below. rewrite travel_parts. pose proof (parts_nonempty p). destruct (parts p) as [|x xs]; [congruence|]. reflexivity.
Qed.
Lemma place_below : forall cwd p, place cwd p = below (if rooted p then [] else cwd) p.
Proof.
  intros cwd p. unfold place. f_equal. destruct p as [|c p]; auto. unfold rooted.
  destruct c as [a0 a1 a2 a3 a4 a5 a6 a7]. now destruct a0, a1, a2, a3, a4, a5, a6, a7.
Qed.
Lemma no_slash_cons : forall (c : ascii) (s : string), no_slash (String c s) <-> (c <> "/"%char /\ no_slash s).
Proof. intros c s. unfold no_slash. cbn. split; [intros H; split; [intros ->; auto|auto]|intros [A B] [C|C]; auto]. Qed.
Lemma no_slash_nil : no_slash "". Proof. intros []. Qed.
Lemma parts_no_slash : forall p, Forall no_slash (parts p).
Proof.
  induction p as [|c p IH]; cbn [parts]; [constructor; auto using no_slash_nil|]. destruct (Ascii.eqb_spec c "/") as [->|N]; [constructor; auto using no_slash_nil|].
  destruct (parts p) as [|x xs].
  - constructor; auto. apply no_slash_cons. split; auto using no_slash_nil.
  - inversion IH; subst. constructor; auto. apply no_slash_cons. auto.
Qed.
Lemma parts_plain : forall w, no_slash w -> parts w = [w].
Proof.
  induction w as [|c w IH]; intros N; auto. apply no_slash_cons in N as [N1 N2]. cbn. apply Ascii.eqb_neq in N1. rewrite N1, IH; auto.
Qed.
Lemma parts_slash : forall w p, parts (w ++ "/" ++ p)%string = parts w ++ parts p.
Proof.
  induction w as [|c w IH]; intros p; [reflexivity|]. cbn [append parts]. cbn [append] in IH. rewrite IH. destruct (Ascii.eqb c "/"); [reflexivity|].
  pose proof (parts_nonempty w). destruct (parts w) as [|x xs]; [congruence|]. reflexivity.
Qed.
Lemma parts_concat : forall l, l <> [] -> Forall no_slash l -> parts (String.concat "/" l) = l.
Proof.
  induction l as [|x l IH]; intros N F; [congruence|]. inversion F; subst. destruct l as [|y l].
  - cbn [String.concat]. now apply parts_plain.
  - change (String.concat "/" (x :: y :: l)) with (x ++ "/" ++ String.concat "/" (y :: l))%string. rewrite parts_slash, parts_plain, IH; auto. discriminate.
Qed.

(** ** Clean *)
Definition word (s : string) : Prop := no_slash s /\ s <> "" /\ s <> ".".
(** What is kept, latest first: names before a run of "..", which there is none of for a path from the root. *)
Definition kept (root : bool) (out : list string) : Prop :=
  exists names n, out = names ++ repeat ".." n /\ Forall named names /\ (root = true -> n = 0).
Lemma kept_word : forall root out, kept root out -> Forall word out.
Proof.
  intros root out (names & n & -> & F & _). apply Forall_app. split.
  - eapply Forall_impl; [|exact F]. intros a (A & B & C & D). repeat split; auto.
  - apply Forall_forall. intros x I. apply repeat_spec in I as ->. repeat split; try discriminate. cbn. intros [X|[X|[]]]; discriminate.
Qed.
Lemma enter_named : forall here w, named w -> enter here w = here ++ [w].
Proof. intros here w (A & B & C & D). unfold enter. destruct (string_dec w ""), (string_dec w "."), (string_dec w ".."); congruence. Qed.
Lemma enter_up : forall here, enter here ".." = removelast here.
Proof. reflexivity. Qed.

Lemma step_kept : forall root out w, no_slash w -> kept root out -> kept root (clean_step root out w).
Proof.
  intros root out w N (names & n & -> & F & R). unfold clean_step. destruct (String.eqb_spec w "") as [->|N1]; [cbn; exists names, n; auto|].
  destruct (String.eqb_spec w ".") as [->|N2]; [cbn; exists names, n; auto|]. cbn [orb]. destruct (String.eqb_spec w "..") as [->|N3].
  - destruct names as [|x names].
    + cbn [app]. destruct n as [|n]; cbn [repeat].
      * destruct root; [exists [], 0; auto|]. exists [], 1. repeat split; auto. discriminate.
      * cbn. exists [], (S (S n)). repeat split; auto. intros E. specialize (R E). discriminate.
    + cbn [app]. inversion F as [|? ? (A & B & C & D) F']; subst. apply String.eqb_neq in D. rewrite D. exists names, n. auto.
  - exists (w :: names), n. repeat split; auto. constructor; auto. repeat split; auto.
Qed.
Lemma step_enter : forall root out w start, kept root out -> no_slash w -> (root = true -> start = []) ->
  fold_left enter (rev (clean_step root out w)) start = enter (fold_left enter (rev out) start) w.
Proof.
  intros root out w start K N R. unfold clean_step. destruct (String.eqb_spec w "") as [->|N1]; [reflexivity|].
  destruct (String.eqb_spec w ".") as [->|N2]; [reflexivity|]. cbn [orb]. destruct (String.eqb_spec w "..") as [->|N3].
  - destruct out as [|x out'].
    + destruct root; cbn [rev fold_left app]; [rewrite R; auto|reflexivity].
    + destruct (String.eqb_spec x "..") as [->|N4]; [cbn [rev]; now rewrite fold_left_app|]. cbn [rev]. rewrite fold_left_app. cbn [fold_left].
      rewrite enter_up, enter_named, removelast_last; auto. apply kept_word in K. inversion K as [|? ? (A & B & C) _]; subst. repeat split; auto.
  - cbn [rev]. now rewrite fold_left_app.
Qed.
Definition kept_parts (p : string) : list string := fold_left (clean_step (rooted p)) (parts p) [].
Lemma clean_fold : forall root ps out start, Forall no_slash ps -> kept root out -> (root = true -> start = []) ->
  kept root (fold_left (clean_step root) ps out) /\
  fold_left enter (rev (fold_left (clean_step root) ps out)) start = fold_left enter ps (fold_left enter (rev out) start).
Proof.
  induction ps as [|w ps IH]; intros out start F K R; [auto|]. inversion F; subst. cbn [fold_left].
  destruct (IH (clean_step root out w) start) as [A B]; auto using step_kept. split; auto. rewrite B, step_enter; auto.
Qed.
Lemma kept_nil : forall root, kept root [].
Proof. intros. exists [], 0. auto. Qed.
Lemma kept_parts_ok : forall p, kept (rooted p) (kept_parts p).
Proof. intros p. apply (clean_fold (rooted p) (parts p) [] []); auto using parts_no_slash, kept_nil. Qed.
Lemma place_kept : forall cwd p, place cwd p = fold_left enter (rev (kept_parts p)) (if rooted p then [] else cwd).
Proof.
  intros cwd p. rewrite place_below, below_parts. symmetry. apply clean_fold; auto using parts_no_slash, kept_nil. intros ->. reflexivity.
Qed.
Lemma concat_rooted : forall l, l <> [] -> Forall word l -> rooted (String.concat "/" l) = false.
Proof.
  intros [|x l] N F; [congruence|]. inversion F as [|? ? (A & B & C) _]; subst. destruct x as [|c x]; [congruence|]. apply no_slash_cons in A as [A _].
  assert (R : forall s, rooted (String c s) = false) by (intros s; cbn; now apply Ascii.eqb_neq). destruct l; cbn [String.concat append]; apply R.
Qed.
Lemma clean_place : forall cwd p, place cwd (clean_path p) = place cwd p.
Proof.
  intros cwd p. rewrite (place_kept cwd p). unfold clean_path. fold (kept_parts p). pose proof (kept_word _ _ (kept_parts_ok p)) as K.
  apply Forall_rev in K. set (l := rev (kept_parts p)) in *. assert (F : Forall no_slash l) by (eapply Forall_impl; [|exact K]; intros a A; apply A).
  destruct (rooted p).
  - rewrite place_below. cbn [append rooted]. change (Ascii.eqb "/" "/") with true. cbv iota. rewrite below_parts. cbn [parts]. change (Ascii.eqb "/" "/") with true. cbv iota.
    cbn [fold_left]. change (enter [] "") with (@nil string). destruct l as [|x l]; [reflexivity|]. rewrite parts_concat; auto. discriminate.
  - clearbody l. destruct l as [|x l]; [reflexivity|]. rewrite place_below, concat_rooted, below_parts, parts_concat; auto; discriminate.
Qed.

(** *** Cleaned paths are the same if they lead to the same places *)
Lemma removelast_skip : forall (l : list string), removelast l = firstn (length l - 1) l.
Proof. intros. rewrite removelast_firstn_len. f_equal. lia. Qed.
Lemma ups : forall n here, fold_left enter (repeat ".." n) here = firstn (length here - n) here.
Proof.
  induction n as [|n IH]; intros here; cbn [repeat fold_left]; [now rewrite Nat.sub_0_r, firstn_all|].
  rewrite enter_up, IH, removelast_skip, firstn_length, firstn_firstn. f_equal. lia.
Qed.
Lemma downs : forall names here, Forall named names -> fold_left enter names here = here ++ names.
Proof.
  induction names as [|x names IH]; intros here F; cbn [fold_left]; [now rewrite app_nil_r|]. inversion F; subst. rewrite enter_named, IH, <- app_assoc; auto.
Qed.
Lemma rev_repeat : forall (x : string) n, rev (repeat x n) = repeat x n.
Proof.
  induction n as [|n IH]; auto. cbn [repeat rev]. rewrite IH. clear IH. induction n as [|n IH]; auto. cbn [repeat app]. now rewrite IH.
Qed.
Lemma kept_place : forall root out cwd, kept root out -> exists names n, rev out = repeat ".." n ++ names /\ Forall named names /\ (root = true -> n = 0) /\
  fold_left enter (rev out) cwd = firstn (length cwd - n) cwd ++ names.
Proof.
  intros root out cwd (names & n & -> & F & R). exists (rev names), n. rewrite rev_app_distr, rev_repeat. apply Forall_rev in F. repeat split; auto.
  rewrite fold_left_app, ups, downs; auto.
Qed.
Lemma named_a : named "a". Proof. repeat split; try discriminate. cbn. intros [X|[]]. discriminate. Qed.
Lemma named_b : named "b". Proof. repeat split; try discriminate. cbn. intros [X|[]]. discriminate. Qed.
Lemma all_named : forall x n, named x -> Forall named (repeat x n).
Proof. intros. apply Forall_forall. intros y I. apply repeat_spec in I as ->. auto. Qed.

Lemma firstn_repeat : forall (x : string) n m, firstn n (repeat x m) = repeat x (Nat.min n m).
Proof. induction n as [|n IH]; intros [|m]; cbn; auto. now rewrite IH. Qed.
Lemma repeat_S_app : forall (x : string) k m, repeat x (k + S m) = repeat x k ++ x :: repeat x m.
Proof. induction k as [|k IH]; intros; cbn; [reflexivity|]. now rewrite IH. Qed.
Lemma runs_apart : forall k m n1 n2, repeat "a" (k + S m) ++ n1 = repeat "a" k ++ n2 -> repeat "b" (k + S m) ++ n1 = repeat "b" k ++ n2 -> False.
Proof.
  intros k m n1 n2 A B. rewrite repeat_S_app, <- app_assoc in A, B. apply app_inv_head in A. apply app_inv_head in B. subst. discriminate.
Qed.
Lemma clean_canonical : forall p q, (forall cwd, Forall named cwd -> place cwd p = place cwd q) -> clean_path p = clean_path q.
Proof.
  intros p q H. pose proof (kept_parts_ok p) as KP. pose proof (kept_parts_ok q) as KQ.
  destruct KP as (np & kp & EP & FP & RP), KQ as (nq & kq & EQ & FQ & RQ).
  assert (FP' : forall s, fold_left enter (rev (kept_parts p)) s = firstn (length s - kp) s ++ rev np).
  { intros s. rewrite EP, rev_app_distr, rev_repeat, fold_left_app, ups, downs; auto using Forall_rev. }
  assert (FQ' : forall s, fold_left enter (rev (kept_parts q)) s = firstn (length s - kq) s ++ rev nq).
  { intros s. rewrite EQ, rev_app_distr, rev_repeat, fold_left_app, ups, downs; auto using Forall_rev. }
  assert (HA := H (repeat "a" (S kp + kq)) (all_named _ _ named_a)). assert (HB := H (repeat "b" (S kp + kq)) (all_named _ _ named_b)).
  rewrite !place_kept, FP', FQ' in HA, HB.
  assert (OUT : rooted p = rooted q /\ kp = kq /\ np = nq).
  { destruct (rooted p), (rooted q).
    - rewrite RP, RQ by auto. cbn in HA. split; auto. split; auto. rewrite <- (rev_involutive np), <- (rev_involutive nq). congruence.
    - exfalso. rewrite firstn_repeat, repeat_length in HA, HB. rewrite firstn_nil in HA, HB. replace (Nat.min (S kp + kq - kq) (S kp + kq)) with (S kp) in * by lia.
      cbn [repeat app] in HA, HB. congruence.
    - exfalso. rewrite firstn_repeat, repeat_length in HA, HB. rewrite firstn_nil in HA, HB. replace (Nat.min (S kp + kq - kp) (S kp + kq)) with (S kq) in * by lia.
      cbn [repeat app] in HA, HB. congruence.
    - rewrite !firstn_repeat, repeat_length in HA, HB. split; auto.
      replace (Nat.min (S kp + kq - kp) (S kp + kq)) with (S kq) in * by lia. replace (Nat.min (S kp + kq - kq) (S kp + kq)) with (S kp) in * by lia.
      destruct (lt_eq_lt_dec kp kq) as [[L|E]|L].
      + exfalso. apply (runs_apart (S kp) (kq - kp - 1) (rev np) (rev nq)); replace (S kp + S (kq - kp - 1)) with (S kq) by lia; auto.
      + subst kq. split; auto. apply app_inv_head in HA. rewrite <- (rev_involutive np), <- (rev_involutive nq). congruence.
      + exfalso. apply (runs_apart (S kq) (kp - kq - 1) (rev nq) (rev np)); replace (S kq + S (kp - kq - 1)) with (S kp) by lia; auto. }
  destruct OUT as (RR & -> & ->). unfold clean_path. fold (kept_parts p) (kept_parts q). now rewrite EP, EQ, RR.
Qed.
Lemma clean_rooted : forall p, rooted (clean_path p) = rooted p.
Proof.
  intros p. unfold clean_path. fold (kept_parts p). pose proof (kept_word _ _ (kept_parts_ok p)) as K. apply Forall_rev in K.
  destruct (rooted p); [reflexivity|]. destruct (rev (kept_parts p)) as [|x l]; [reflexivity|]. apply concat_rooted; auto. discriminate.
Qed.
Lemma clean_clean : forall p, clean_path (clean_path p) = clean_path p.
Proof. intros p. apply clean_canonical. intros. apply clean_place. Qed.

(** ** Join, Dir and Resolve *)
Lemma below_slash : forall here a b, below here (a ++ "/" ++ b)%string = below (below here a) b.
Proof. intros. now rewrite !below_parts, parts_slash, fold_left_app. Qed.
Lemma rooted_app : forall a b, a <> "" -> rooted (a ++ b)%string = rooted a.
Proof. intros [|c a] b N; [congruence|reflexivity]. Qed.
Lemma place_slash : forall cwd a b, a <> "" -> place cwd (a ++ "/" ++ b)%string = below (place cwd a) b.
Proof. intros. now rewrite !place_below, rooted_app, below_slash. Qed.
Lemma clean_nonempty : forall p, clean_path p <> "".
Proof.
  intros p. unfold clean_path. fold (kept_parts p). pose proof (kept_word _ _ (kept_parts_ok p)) as K. apply Forall_rev in K. destruct (rooted p); [discriminate|].
  destruct (rev (kept_parts p)) as [|x l]; [discriminate|]. inversion K as [|? ? (A & B & C) _]; subst. destruct x as [|c x]; [congruence|]. destruct l; discriminate.
Qed.
Lemma join_nonempty : forall a l, a <> "" -> join_paths (a :: l) = clean_path (String.concat "/" (a :: l)).
Proof. intros a l N. cbn [join_paths]. apply String.eqb_neq in N. now rewrite N. Qed.

Lemma resolve_top : forall cwd base file, base <> "" -> place cwd (resolve_import base "" file) = below (place cwd base) file.
Proof. intros. unfold resolve_import. cbn [String.eqb]. rewrite clean_place, join_nonempty, clean_place by auto. cbn [String.concat]. now apply place_slash. Qed.
Lemma resolve_nested : forall cwd base from file, base <> "" -> from <> "" ->
  place cwd (resolve_import base from file) = below (below (place cwd base) from) file.
Proof.
  intros cwd base from file N F. unfold resolve_import. apply String.eqb_neq in F. rewrite F, clean_place, join_nonempty, clean_place by auto. cbn [String.concat].
  rewrite place_slash by auto. apply below_slash.
Qed.
Lemma resolve_rooted : forall base from file, base <> "" -> rooted (resolve_import base from file) = rooted base.
Proof.
  intros base from file N. unfold resolve_import. destruct (String.eqb from ""); rewrite clean_rooted, join_nonempty, clean_rooted by auto; cbn [String.concat]; now apply rooted_app.
Qed.

Lemma up_plain : forall s, no_slash s -> up_to_slash s = "".
Proof.
  induction s as [|c s IH]; intros N; auto. apply no_slash_cons in N as [A B]. cbn. rewrite IH by auto. apply Ascii.eqb_neq in A. now rewrite A.
Qed.
Lemma up_splits : forall p d name, splits p d name -> up_to_slash p = d.
Proof.
  intros p d name (-> & N & [->|(e & ->)]); [now apply up_plain|]. induction e as [|c e IH]; cbn [append up_to_slash].
  - rewrite up_plain; auto.
  - rewrite IH. destruct e; reflexivity.
Qed.
Lemma dir_place : forall cwd p d name, splits p d name -> place cwd (dir_path p) = place cwd d.
Proof. intros cwd p d name S. unfold dir_path. rewrite (up_splits _ _ _ S). apply clean_place. Qed.
Lemma splits_any : forall p, exists d name, splits p d name.
Proof.
  induction p as [|c p (d & name & -> & N & D)].
  - exists "", "". repeat split; auto using no_slash_nil.
  - destruct D as [->|(e & ->)].
    + destruct (ascii_dec c "/") as [->|C].
      * exists "/", name. repeat split; auto. right. now exists "".
      * exists "", (String c name). repeat split; auto. apply no_slash_cons. auto.
    + exists (String c (e ++ "/")), name. repeat split; auto. right. now exists (String c e).
Qed.

(** ** Joined paths *)
Lemma concat_below : forall l here, below here (String.concat "/" l) = fold_left below l here.
Proof.
  induction l as [|x l IH]; intros here; [reflexivity|]. destruct l as [|y l]; [reflexivity|].
  change (String.concat "/" (x :: y :: l)) with (x ++ "/" ++ String.concat "/" (y :: l))%string. now rewrite below_slash, IH.
Qed.
Lemma concat_starts : forall x l, x <> "" -> rooted (String.concat "/" (x :: l)) = rooted x.
Proof. intros [|c x] [|y l] N; try congruence; reflexivity. Qed.
Lemma below_filter : forall l here,
  fold_left below (filter (fun p => if string_dec p "" then false else true) l) here = fold_left below l here.
Proof.
  induction l as [|x l IH]; intros here; [reflexivity|]. cbn [filter fold_left]. destruct (string_dec x "") as [->|N]; [|cbn [fold_left]]; rewrite IH; reflexivity.
Qed.
Lemma join_place : forall cwd l,
  place cwd (join_paths l) =
  match filter (fun p => if string_dec p "" then false else true) l with
  | [] => cwd
  | first :: rest => fold_left below rest (place cwd first)
  end.
Proof.
  intros cwd. induction l as [|x l IH]; [reflexivity|]. cbn [join_paths filter]. destruct (string_dec x "") as [->|N]; [exact IH|].
  apply String.eqb_neq in N as E. rewrite E, clean_place, !place_below, concat_starts, concat_below, below_filter by auto. reflexivity.
Qed.
