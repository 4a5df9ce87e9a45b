(** The texts of validation errors are those that tell the faults. *)
From Verif Require Import Base Scanner Syntax Engine Resolve Ast AstProofs WbnfAst Walker WalkerSpec WalkerProofs Build Recursion RecursionSpec RecursionProofs Validate
  ValidSpec ValidProofs NumSpec Treeview TreeviewProofs NodeStringProofs Messages MessagesSpec MessagesProofs.
Local Open Scope list_scope.

(** ** Formats *)
Lemma sprintf_lit : forall a f args, ~ In "%"%char a -> sprintf (a ++ f) args = option_map (app a) (sprintf f args).
Proof.
  induction a as [|c a IH]; intros f args N; cbn [app sprintf]; [destruct (sprintf f args); auto|].
  destruct (Ascii.eqb_spec c "%") as [->|NE]; [exfalso; apply N; now left|]. rewrite IH; [|intros I; apply N; now right].
  destruct (sprintf f args); auto.
Qed.
Lemma sprintf_s : forall f x args, sprintf (bs "%s" ++ f) (FText x :: args) = option_map (app x) (sprintf f args).
Proof. reflexivity. Qed.
Lemma sprintf_d : forall f z args, sprintf (bs "%d" ++ f) (FNum z :: args) = option_map (app (decz z)) (sprintf f args).
Proof. reflexivity. Qed.
Lemma sprintf_end : forall z, sprintf (bs "@ %d") [FNum z] = Some (bs "@ " ++ decz z).
Proof. intros z. cbn [bs list_ascii_of_string sprintf Ascii.eqb Bool.eqb option_map app]. now rewrite app_nil_r. Qed.
Definition has_percent (x : bytes) : bool := existsb (Ascii.eqb "%") x.
Lemma percent_free : forall x, has_percent x = false -> ~ In "%"%char x.
Proof. intros x H I. assert (X : has_percent x = true) by (apply existsb_exists; exists "%"%char; split; auto). congruence. Qed.

Lemma quote_text : forall k s x pre post msg, sstring s = Some x -> x <> [] -> bs msg = bs pre ++ bs "%s" ++ bs post ->
  has_percent (bs pre) = false -> has_percent (bs post) = false ->
  message_text (mkMessage k s (bs msg) []) = COk (Some (quoting pre x (bs post) s)).
Proof.
  intros k s [|b x] pre post msg T NE M P1 P2; [contradiction|]. eapply placed_text; eauto. rewrite M, <- !app_assoc.
  rewrite sprintf_lit by now apply percent_free. cbn [app]. rewrite sprintf_s. rewrite sprintf_lit by now apply percent_free. rewrite sprintf_end.
  cbn [option_map]. unfold quoting. now rewrite <- ?app_assoc.
Qed.
Lemma quote_text2 : forall k s x y pre post msg, sstring s = Some x -> x <> [] -> bs msg = bs pre ++ bs "%s" ++ bs post ++ bs "%s" ->
  has_percent (bs pre) = false -> has_percent (bs post) = false ->
  message_text (mkMessage k s (bs msg) [FText y]) = COk (Some (quoting pre x (bs post ++ y) s)).
Proof.
  intros k s [|b x] y pre post msg T NE M P1 P2; [contradiction|]. eapply placed_text; eauto. rewrite M, <- !app_assoc.
  rewrite sprintf_lit by now apply percent_free. cbn [app]. rewrite sprintf_s. rewrite sprintf_lit by now apply percent_free. rewrite sprintf_s. rewrite sprintf_end.
  cbn [option_map]. unfold quoting. now rewrite <- ?app_assoc.
Qed.
Lemma bounds_format : forall mn mx, formatted "quant: min (%d) > max (%d)" [FNum (Z.of_nat mn); FNum (Z.of_nat mx)] =
  bs "quant: min (" ++ bs (dec mn) ++ bs ") > max (" ++ bs (dec mx) ++ bs ")".
Proof.
  intros mn mx. unfold formatted. change (bs "quant: min (%d) > max (%d)") with (bs "quant: min (" ++ bs "%d" ++ bs ") > max (" ++ bs "%d" ++ bs ")").
  rewrite sprintf_lit by (now apply percent_free). rewrite sprintf_d. rewrite sprintf_lit by (now apply percent_free). rewrite sprintf_d.
  rewrite sprintf_plain by (now apply percent_free). cbn [option_map]. now rewrite !decz_nat.
Qed.
Lemma count_format : forall x a b, formatted "Macro %s expected %d args, given %d" [FText x; FNum (Z.of_nat a); FNum (Z.of_nat b)] =
  bs "Macro " ++ x ++ bs " expected " ++ bs (dec a) ++ bs " args, given " ++ bs (dec b).
Proof.
  intros x a b. unfold formatted. change (bs "Macro %s expected %d args, given %d") with (bs "Macro " ++ bs "%s" ++ bs " expected " ++ bs "%d" ++ bs " args, given " ++ bs "%d" ++ []).
  rewrite sprintf_lit by (now apply percent_free). rewrite sprintf_s. rewrite sprintf_lit by (now apply percent_free). rewrite sprintf_d.
  rewrite sprintf_lit by (now apply percent_free). rewrite sprintf_d. cbn [sprintf option_map]. now rewrite app_nil_r, !decz_nat.
Qed.

(** ** Tokens *)
Lemma token_one : forall name n s x, token_at name n s x <-> exists m, one name n = Some m /\ located_at m s x.
Proof.
  intros name n s x. pose proof (one_labelled name n) as H. unfold token_at. split.
  - intros (m & more & L & A). exists m. split; auto. rewrite L in H. destruct (one name n); cbn in H; congruence.
  - intros (m & O & A). rewrite O in H. cbn in H. destruct (labelled name n) as [|y l]; inversion H; subst. eauto.
Qed.
Lemma text_located : forall m y, string_of (Some m) = COk y -> exists s x, located_at m s x /\ y = sb x.
Proof.
  intros m y H. unfold string_of in H. apply cbind_inv in H as (b & B & H). injection H as <-. unfold node_text in B.
  destruct (node_scanner m) as [s|] eqn:S1; [|discriminate]. destruct (sstring s) as [x|] eqn:T; [|discriminate]. injection B as ->. exists s, b. split; auto. split; auto.
Qed.
Lemma located_text : forall m s x, located_at m s x -> string_of (Some m) = COk (sb x).
Proof. intros m s x [A B]. unfold string_of, node_text. rewrite A, B. reflexivity. Qed.
Lemma located_det : forall m s x s' x', located_at m s x -> located_at m s' x' -> s = s' /\ x = x'.
Proof. intros m s x s' x' [A B] [C D]. rewrite A in C. injection C as <-. split; congruence. Qed.
Lemma token_det : forall name n s x s' x', token_at name n s x -> token_at name n s' x' -> s = s' /\ x = x'.
Proof.
  intros name n s x s' x' A B. apply token_one in A as (m & O & A). apply token_one in B as (m' & O' & B). rewrite O in O'. injection O' as <-. eapply located_det; eauto.
Qed.
Lemma token_says : forall name n s x, token_at name n s x -> says name n (sb x).
Proof. intros name n s x A. apply token_one in A as (m & O & A). apply says_one. exists m. split; auto. eapply located_text; eauto. Qed.
Lemma sb_inj : forall x y, sb x = sb y -> x = y.
Proof. intros x y H. rewrite <- (bs_sb x), <- (bs_sb y). now rewrite H. Qed.

Definition tells (m : message) (t : bytes) : Prop := message_text m = COk (Some t).
Definition added (r r' : reporter) (P : bytes -> Prop) : Prop :=
  r_known r' = r_known r /\ exists new ts, r_msgs r' = r_msgs r ++ new /\ Forall2 tells new ts /\ forall t, In t ts <-> P t.
Lemma added_none : forall r P, (forall t, ~ P t) -> added r r P.
Proof. intros r P N. split; auto. exists [], []. rewrite app_nil_r. split; auto. split; [constructor|]. intros t. split; [intros []|intros X; destruct (N t X)]. Qed.
Lemma added_one : forall r m t (P : bytes -> Prop), tells m t -> P t -> (forall u, P u -> u = t) -> added r (add m r) P.
Proof.
  intros r m t P T PT U. split; auto. exists [m], [t]. split; auto. split; [constructor; auto|]. intros u. cbn [In]. split; [intros [<-|[]]; auto|]. intros X. left. symmetry. auto.
Qed.

(** ** Terms *)
Definition ident_at (u : anode) (s : scanner) (x : bytes) : Prop := exists named more, labelled "named" u = named :: more /\ token_at "IDENT" named s x /\ x <> [].
Lemma ident_at_ident : forall u s x, ident_at u s x -> ident_of u (sb x).
Proof.
  intros u s x (named & more & L & T & NE). econstructor; eauto; [eapply token_says; eauto|]. intros X. apply NE. apply sb_inj. exact X.
Qed.
Lemma ident_ident_at : forall u y, ident_of u y -> exists s x, ident_at u s x /\ y = sb x.
Proof.
  intros u y H. inversion H as [c named more x L SX NE]; subst. apply says_one in SX as (m & O & T). apply text_located in T as (s & x & A & ->).
  exists s, x. split; auto. exists named, more. split; auto. split; [apply token_one; eauto|]. intros ->. now apply NE.
Qed.
Lemma ident_at_det : forall u s x s' x', ident_at u s x -> ident_at u s' x' -> s = s' /\ x = x'.
Proof.
  intros u s x s' x' (n1 & m1 & L1 & T1 & _) (n2 & m2 & L2 & T2 & _). rewrite L1 in L2. injection L2 as <- <-. eapply token_det; eauto.
Qed.
Definition again (s : scanner) (x : bytes) : bytes := quoting "identifier '" x (bs "' is being used multiple times in a single term") s.
Definition repeated (ts : list anode) (names : list string) (t : bytes) : Prop :=
  exists a u c s x, ts = a ++ u :: c /\ ident_at u s x /\ t = again s x /\ (In (sb x) names \/ exists v, In v a /\ ident_of v (sb x)).
Lemma repeated_skip : forall t ts names u, (forall x, ~ ident_of t x) -> (repeated (t :: ts) names u <-> repeated ts names u).
Proof.
  intros t ts names u N. split.
  - intros (a & v & c & s & x & E & A & -> & B). destruct a as [|a0 a]; cbn in E; injection E as E0 E1; subst.
    + destruct (N _ (ident_at_ident _ _ _ A)).
    + exists a, v, c, s, x. split; auto. split; auto. split; auto. destruct B as [B|(w & [<-|I] & B)]; [auto|destruct (N _ B)|eauto].
  - intros (a & v & c & s & x & -> & A & -> & B). exists (t :: a), v, c, s, x. split; auto. split; auto. split; auto. destruct B as [B|(w & I & B)]; [auto|]. right. exists w. split; [now right|auto].
Qed.
Lemma clash_texts : forall ts names r r', clash_messages ts names r = COk r' -> added r r' (repeated ts names).
Proof.
  induction ts as [|t ts IH]; intros names r r' H; cbn [clash_messages] in H.
  - injection H as <-. apply added_none. intros u (a & v & c & s & x & E & _). destruct a; discriminate.
  - assert (SKIP : (forall x, ~ ident_of t x) -> clash_messages ts names r = COk r' -> added r r' (repeated (t :: ts) names)).
    { intros N H0. destruct (IH _ _ _ H0) as (K & new & us & M & F & L). split; auto. exists new, us. split; auto. split; auto. intros u. rewrite L. symmetry. now apply repeated_skip. }
    destruct (one "named" t) as [named|] eqn:O; [|apply SKIP; auto; intros x D; apply ident_of_one in D as (n2 & O2 & _); congruence].
    destruct (one "IDENT" named) as [ident|] eqn:O1; [|apply SKIP; auto; intros x D; apply ident_of_one in D as (n2 & O2 & S2 & NE); rewrite O in O2; injection O2 as <-; rewrite O1 in S2; cbn in S2; congruence].
    apply cbind_inv in H as (y & SY & H). destruct (String.eqb_spec y "") as [->|NE].
    { apply SKIP; auto. intros x D. apply ident_of_one in D as (n2 & O2 & S2 & NE). rewrite O in O2. injection O2 as <-. rewrite O1, SY in S2. congruence. }
    apply cbind_inv in H as (r1 & C & H). apply text_located in SY as (s & x & A & ->).
    assert (D : ident_at t s x).
    { pose proof (one_labelled "named" t) as L. rewrite O in L. destruct (labelled "named" t) as [|n2 l] eqn:LL; cbn in L; inversion L; subst. exists n2, l. split; auto. split; [apply token_one; eauto|].
      intros ->. now apply NE. }
    pose proof (ident_at_ident _ _ _ D) as DI. destruct (IH _ _ _ H) as (K & new & us & M & F & L).
    assert (STEP : forall u, repeated (t :: ts) names u <-> (u = again s x /\ In (sb x) names) \/ repeated ts (with_ (sb x) names) u).
    { intros u. split.
      - intros (a & v & c & s1 & x1 & E & A1 & -> & B). destruct a as [|a0 a]; cbn in E; injection E as E0 E1; subst.
        + destruct (ident_at_det _ _ _ _ _ D A1) as [<- <-]. destruct B as [B|(w & [] & _)]. auto.
        + right. exists a, v, c, s1, x1. split; auto. split; auto. split; auto. rewrite with_In. destruct B as [B|(w & [<-|I] & B)]; [auto| |eauto].
          left. left. eapply ident_of_det; eauto.
      - intros [[-> B]|(a & v & c & s1 & x1 & -> & A1 & -> & B)].
        + exists [], t, ts, s, x. auto.
        + exists (t :: a), v, c, s1, x1. split; auto. split; auto. split; auto. rewrite with_In in B. destruct B as [[B|B]|(w & I & B)]; auto.
          * right. exists t. split; [now left|]. now rewrite B.
          * right. exists w. split; [now right|auto]. }
    destruct (mem (sb x) names) eqn:ME.
    + apply complain_ok in C as (s0 & P & ->). destruct A as [A1 A2]. rewrite A1 in P. injection P as <-. split; [exact K|].
      exists (mkMessage MultipleTermsWithSameName s (bs "identifier '%s' is being used multiple times in a single term") [] :: new), (again s x :: us).
      split; [rewrite M; cbn [add r_msgs]; now rewrite <- app_assoc|]. split.
      * constructor; auto. unfold tells, again. apply quote_text; auto. intros ->. now apply NE.
      * intros u. rewrite STEP. cbn [In]. rewrite L. apply mem_true in ME. split; [intros [<-|I]; auto|intros [[-> _]|I]; auto].
    + injection C as <-. split; auto. exists new, us. split; auto. split; auto. intros u. rewrite STEP, L. apply mem_false in ME. split; [auto|]. intros [[_ I]|I]; [contradiction|auto].
Qed.

(** ** Arguments *)
Definition arg_clash (s : scanner) (x : bytes) : bytes := quoting "macro arg '" x (bs "' clashes with a defined rule") s.
Definition retaken (ms : list anode) (known : list string) (t : bytes) : Prop :=
  exists a m b s x, ms = a ++ m :: b /\ located_at m s x /\ t = arg_clash s x /\ (In (sb x) known \/ exists m' s', In m' a /\ located_at m' s' x).
Lemma arg_texts : forall args r r', arg_messages args r = COk r' -> (forall a s x, In a args -> located_at a s x -> x <> []) ->
  exists new ts, r_msgs r' = r_msgs r ++ new /\ Forall2 tells new ts /\ forall t, In t ts <-> retaken args (r_known r) t.
Proof.
  induction args as [|m args IH]; intros r r' H NE; cbn [arg_messages] in H.
  - injection H as <-. exists [], []. rewrite app_nil_r. split; auto. split; [constructor|]. intros t. split; [intros []|intros (a & m & b & s & x & E & _); destruct a; discriminate].
  - apply cbind_inv in H as (y & SY & H). apply cbind_inv in H as (r1 & C & H). apply text_located in SY as (s & x & A & ->).
    destruct (IH _ _ H) as (new & ts & M & F & L); [intros a s0 x0 I; apply (NE a s0 x0); now right|].
    assert (STEP : forall t known', (forall z, In z known' <-> z = sb x \/ In z (r_known r)) ->
      (retaken (m :: args) (r_known r) t <-> (t = arg_clash s x /\ In (sb x) (r_known r)) \/ retaken args known' t)).
    { intros t known' K. split.
      - intros (a & v & b & s1 & x1 & E & A1 & -> & B). destruct a as [|a0 a]; cbn in E; injection E as E0 E1; subst.
        + destruct (located_det _ _ _ _ _ A A1) as [<- <-]. destruct B as [B|(w & s' & [] & _)]. auto.
        + right. exists a, v, b, s1, x1. split; auto. split; auto. split; auto. rewrite K. destruct B as [B|(w & s' & [<-|I] & B)]; [auto| |eauto].
          destruct (located_det _ _ _ _ _ A B) as [_ <-]. auto.
      - intros [[-> B]|(a & v & b & s1 & x1 & -> & A1 & -> & B)].
        + exists [], m, args, s, x. auto.
        + exists (m :: a), v, b, s1, x1. split; auto. split; auto. split; auto. rewrite K in B. destruct B as [[B|B]|(w & s' & I & B)]; auto.
          * right. exists m, s. split; [now left|]. apply sb_inj in B. now subst.
          * right. exists w, s'. split; [now right|auto]. }
    destruct (mem (sb x) (r_known r)) eqn:ME.
    + apply complain_ok in C as (s0 & P & ->). destruct A as [A1 A2]. rewrite A1 in P. injection P as <-.
      exists (mkMessage NameClashesWithRule s (bs "macro arg '%s' clashes with a defined rule") [] :: new), (arg_clash s x :: ts).
      split; [rewrite M; cbn [add r_msgs]; now rewrite <- app_assoc|]. apply mem_true in ME. split.
      * constructor; auto. unfold tells, arg_clash. apply quote_text; auto. apply (NE m s x); [now left|split; auto].
      * intros t. rewrite (STEP t (r_known r)) by (intros z; split; [auto|intros [->|I]; auto]). cbn [In add r_known] in *. rewrite L. split; [intros [<-|I]; auto|intros [[-> _]|I]; auto].
    + injection C as <-. exists new, ts. split; auto. split; auto. intros t. cbn [r_known] in L. rewrite L. apply mem_false in ME.
      rewrite (STEP t (with_ (sb x) (r_known r))) by (intros z; apply with_In). split; auto. intros [[_ I]|I]; [contradiction|auto].
Qed.

(** ** One step *)
Definition node_printable (m : anode) : Prop :=
  (forall name s x, In name ["IDENT"; "RE"; "name"]%string -> token_at name m s x -> x <> []) /\
  (forall a s x, In a (labelled "args" m) -> located_at a s x -> x <> []) /\
  (forall x, says_or_none "name" m x -> no_percent x).

Lemma step_texts : forall E err ms (M : string -> anode -> Prop) k n r s r', (forall x m, lookup x ms = Some m <-> M x m) -> node_printable n ->
  reporter_ops E err ms k n r = COk (s, r') -> s = (if closed k n then Some NodeExiter else None) /\ added r r' (complaint E err (r_known r) M k n).
Proof.
  intros E err ms M k n r s r' HM (PT & PA & PN) H.
  assert (ST : s = (if closed k n then Some NodeExiter else None)).
  { apply ops_erase in H. apply (validator_step _ _ M) in H as (H & _); auto. }
  split; auto. clear ST. destruct k; cbn [reporter_ops] in H; try (injection H as <- <-; apply added_none; intros t F; inversion F; fail).
  - (* atom *) unfold atom_messages in H. destruct (one "IDENT" n) as [i|] eqn:O.
    + apply cbind_inv in H as (y & SY & H). apply cbind_inv in H as (r1 & C & H). injection H as <- <-. apply text_located in SY as (p & x & A & ->).
      assert (T : token_at "IDENT" n p x) by (apply token_one; eauto). assert (NI : labelled "IDENT" n <> []) by (rewrite none_one; congruence).
      destruct (String.eqb_spec (sb x) "@") as [EQ|NE].
      * injection C as <-. apply added_none. intros t F. inversion F; subst; [|contradiction]. match goal with X : token_at "IDENT" n _ _ |- _ => destruct (token_det _ _ _ _ _ _ T X) as [<- <-] end.
        match goal with X : x <> _ |- _ => apply X end. apply sb_inj. rewrite EQ. reflexivity.
      * assert (NX : x <> bs "@") by (intros ->; now apply NE). destruct (mem (sb x) (r_known r)) eqn:ME.
        -- injection C as <-. apply mem_true in ME. apply added_none. intros t F. inversion F; subst; [|contradiction]. match goal with X : token_at "IDENT" n _ _ |- _ => destruct (token_det _ _ _ _ _ _ T X) as [<- <-] end. contradiction.
        -- apply mem_false in ME. apply complain_ok in C as (q & Q & ->). destruct A as [A1 A2]. rewrite A1 in Q. injection Q as <-.
           eapply added_one; [apply quote_text with (pre := "identifier '"%string) (post := "' is not a defined rule"%string); [exact A2|apply (PT "IDENT"%string p x); [cbn; auto|auto]|reflexivity|reflexivity|reflexivity]|eapply unknown_text; eauto|].
           intros u F. inversion F; subst; [|contradiction]. match goal with X : token_at "IDENT" n _ _ |- _ => destruct (token_det _ _ _ _ _ _ T X) as [<- <-] end. reflexivity.
    + assert (NI : labelled "IDENT" n = []) by (apply none_one; auto). assert (NT : forall p x, ~ token_at "IDENT" n p x) by (intros p x T; apply token_one in T as (m & O' & _); congruence).
      destruct (one "RE" n) as [i|] eqn:R.
      * apply cbind_inv in H as (y & SY & H). apply cbind_inv in H as (r1 & C & H). injection H as <- <-. apply text_located in SY as (p & x & A & ->). rewrite bs_sb in C.
        assert (T : token_at "RE" n p x) by (apply token_one; eauto). destruct (re_valid E x) eqn:V.
        -- injection C as <-. apply added_none. intros t F. inversion F; subst; [eapply NT; eauto|]. match goal with X : token_at "RE" n _ _ |- _ => destruct (token_det _ _ _ _ _ _ T X) as [<- <-] end. congruence.
        -- apply complain_ok in C as (q & Q & ->). destruct A as [A1 A2]. rewrite A1 in Q. injection Q as <-.
           eapply added_one; [apply quote_text2 with (pre := "regex '"%string) (post := "' is not valid, "%string); [exact A2|apply (PT "RE"%string p x); [cbn; auto|auto]|reflexivity|reflexivity|reflexivity]|eapply regex_text; eauto|].
           intros u F. inversion F; subst; [exfalso; eapply NT; eauto|]. match goal with X : token_at "RE" n _ _ |- _ => destruct (token_det _ _ _ _ _ _ T X) as [<- <-] end. reflexivity.
      * injection H as <- <-. apply added_none. intros t F. inversion F; subst; [eapply NT; eauto|]. match goal with X : token_at "RE" n _ _ |- _ => apply token_one in X as (m & O' & _); congruence end.
  - (* macro call *) unfold call_messages in H. apply cbind_inv in H as (y & SY & H). apply cbind_inv in H as (r1 & C & H). injection H as <- <-. pose proof SY as SN. apply says_or_none_one in SN.
    destruct (lookup y ms) as [m|] eqn:LK.
    + pose proof (proj1 (HM _ _) LK) as MM. destruct (Nat.eqb_spec (length (all "args" m)) (length (all "term" n))) as [EQ|NE]; rewrite !all_labelled in *.
      * injection C as <-. apply added_none. intros t F. inversion F; subst.
        -- match goal with X : token_at "name" n _ ?z, B : forall m, ~ M _ m |- _ => apply token_says in X; rewrite (says_or_none_det _ _ _ _ (or_introl X) SN) in B; eapply B; eauto end.
        -- match goal with X : says_or_none "name" n ?z, B : M ?z _ |- _ => rewrite (says_or_none_det _ _ _ _ X SN) in B; apply HM in B; rewrite LK in B; injection B as <- end. contradiction.
      * injection C as <-. rewrite count_format. eapply added_one; [apply plain_text| |].
        -- intros I. rewrite !in_app_iff in I. destruct I as [I|[I|[I|[I|[I|I]]]]]; try (revert I; apply percent_free; reflexivity); try (revert I; apply dec_plain). exact (PN _ SN I).
        -- eapply count_text; eauto.
        -- intros u F. inversion F; subst.
           ++ match goal with X : token_at "name" n _ ?z, B : forall m, ~ M _ m |- _ => apply token_says in X; rewrite (says_or_none_det _ _ _ _ (or_introl X) SN) in B; exfalso; eapply B; eauto end.
           ++ match goal with X : says_or_none "name" n ?z, B : M ?z _ |- _ => rewrite (says_or_none_det _ _ _ _ X SN) in *; apply HM in B; rewrite LK in B; injection B as <- end. reflexivity.
    + apply cbind_inv in C as (i & D & C). unfold deref in D. destruct (one "name" n) as [i0|] eqn:O; [|discriminate]. injection D as ->.
      apply text_located in SY as (p & x & A & ->). assert (T : token_at "name" n p x) by (apply token_one; eauto). apply complain_ok in C as (q & Q & ->). destruct A as [A1 A2]. rewrite A1 in Q. injection Q as <-.
      eapply added_one; [apply quote_text with (pre := "Attempting to call "%string) (post := " which is not a macro"%string); [exact A2|apply (PT "name"%string p x); [cbn; auto|auto]|reflexivity|reflexivity|reflexivity]|eapply call_text; eauto|].
      * intros m MM. apply HM in MM. congruence.
      * intros u F. inversion F; subst.
        -- match goal with X : token_at "name" n _ _ |- _ => destruct (token_det _ _ _ _ _ _ T X) as [<- <-] end. reflexivity.
        -- match goal with X : says_or_none "name" n ?z, B : M ?z _ |- _ => rewrite (says_or_none_det _ _ _ _ X SN) in B; apply HM in B; congruence end.
  - (* named *) unfold named_messages in H. destruct (one "IDENT" n) as [i|] eqn:O.
    + apply cbind_inv in H as (y & SY & H). apply cbind_inv in H as (r1 & C & H). injection H as <- <-. apply text_located in SY as (p & x & A & ->).
      assert (T : token_at "IDENT" n p x) by (apply token_one; eauto). destruct (mem (sb x) (r_known r)) eqn:ME.
      * apply mem_true in ME. apply complain_ok in C as (q & Q & ->). destruct A as [A1 A2]. rewrite A1 in Q. injection Q as <-.
        eapply added_one; [apply quote_text with (pre := "identifier '"%string) (post := "' clashes with a defined rule"%string); [exact A2|apply (PT "IDENT"%string p x); [cbn; auto|auto]|reflexivity|reflexivity|reflexivity]|eapply clash_text; eauto|].
        intros u F. inversion F; subst. match goal with X : token_at "IDENT" n _ _ |- _ => destruct (token_det _ _ _ _ _ _ T X) as [<- <-] end. reflexivity.
      * apply mem_false in ME. injection C as <-. apply added_none. intros u F. inversion F; subst. match goal with X : token_at "IDENT" n _ _ |- _ => destruct (token_det _ _ _ _ _ _ T X) as [<- <-] end. contradiction.
    + injection H as <- <-. apply added_none. intros u F. inversion F; subst. match goal with X : token_at "IDENT" n _ _ |- _ => apply token_one in X as (m & O' & _); congruence end.
  - (* macro definition *) unfold macro_messages in H. apply cbind_inv in H as (r1 & C & H). injection H as <- <-. rewrite all_labelled in C.
    destruct (arg_texts _ _ _ C) as (new & ts & MS & F & L); auto. split; auto. exists new, ts. split; auto. split; auto. intros t. rewrite L. split.
    + intros (a & m & b & p & x & EQ & A & -> & B). eapply arg_text; eauto.
    + intros X. inversion X; subst. eexists; do 4 eexists. split; [eassumption|]. split; [eassumption|]. split; [reflexivity|auto].
  - (* quantifier *) unfold quant_messages in H. apply cbind_inv in H as (c & C & H). destruct (Z.eqb_spec c 1) as [->|NE].
    + apply cbind_inv in H as (mn & MN & H). apply cbind_inv in H as (mx & MX & H). injection H as <- <-.
      destruct (negb (mn =? 0) && negb (mx =? 0) && (mx <? mn))%bool eqn:B.
      * apply andb_prop in B as [B B3]. apply andb_prop in B as [B1 B2]. apply Nat.ltb_lt in B3. apply negb_true_iff, Nat.eqb_neq in B2. rewrite bounds_format. eapply added_one; [apply plain_text| |].
        -- intros I. rewrite !in_app_iff in I. destruct I as [I|[I|[I|[I|I]]]]; try (revert I; apply percent_free; reflexivity); revert I; apply dec_plain.
        -- apply bounds_text; auto; try (apply says_number_bound; auto); lia.
        -- intros u F. inversion F; subst. repeat match goal with X : says_number _ _ _ |- _ => apply says_number_bound in X end. assert (mn = mn0) by congruence. assert (mx = mx0) by congruence. now subst.
      * apply added_none. intros u F. inversion F; subst. repeat match goal with X : says_number _ _ _ |- _ => apply says_number_bound in X end. assert (mn = mn0) by congruence. assert (mx = mx0) by congruence. subst.
        rewrite (proj2 (Nat.ltb_lt _ _)) in B by auto. destruct (Nat.eqb_spec mx0 0); [lia|]. destruct (Nat.eqb_spec mn0 0); [lia|]. discriminate.
    + injection H as <- <-. apply added_none. intros u F. inversion F; subst. rewrite C in *. congruence.
  - (* term *) unfold term_messages in H. rewrite all_labelled in H. destruct (labelled "grammar" n) as [|g l] eqn:G; [|injection H as <- <-; apply added_none; intros u F; inversion F; subst; congruence].
    apply cbind_inv in H as (op & OP & H). destruct (String.eqb_spec op "") as [->|NE].
    + apply cbind_inv in H as (r1 & C & H). injection H as <- <-. rewrite all_labelled in C. destruct (clash_texts _ _ _ _ C) as (K & new & ts & MS & F & L). split; auto. exists new, ts. split; auto. split; auto.
      intros t. rewrite L. split.
      * intros (a & u & c & p & x & EQ & (named & more & LN & T & NX) & -> & [[]|(v & I & D)]). apply in_split in I as (a1 & a2 & ->). rewrite <- app_assoc in EQ. cbn [app] in EQ. eapply twice_text; eauto.
      * intros X. inversion X; subst. match goal with Q : labelled "term" n = ?a ++ ?t0 :: ?b ++ ?u :: ?c |- _ => exists (a ++ t0 :: b), u, c end. do 2 eexists.
        split; [rewrite <- app_assoc; cbn [app]; eassumption|]. split; [do 2 eexists; split; [eassumption|split; eassumption]|]. split; [reflexivity|]. right. eexists. split; [|eassumption]. apply in_or_app. right. now left.
    + injection H as <- <-. apply added_none. intros u F. inversion F; subst. congruence.
Qed.
