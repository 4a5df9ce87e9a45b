(** Proofs about the texts of validation errors. *)
From Verif Require Import Base Scanner Syntax Engine Resolve Ast AstProofs WbnfAst Walker WalkerSpec WalkerProofs Build Recursion RecursionSpec RecursionProofs Validate
  ValidSpec ValidProofs NumSpec Treeview TreeviewProofs NodeStringProofs Messages MessagesSpec.
Local Open Scope list_scope.

(** ** Formats *)
Lemma sprintf_plain : forall f, ~ In "%"%char f -> sprintf f [] = Some f.
Proof.
  induction f as [|c f IH]; intros N; cbn [sprintf]; auto. destruct (Ascii.eqb_spec c "%") as [->|NE]; [exfalso; apply N; now left|].
  rewrite IH; auto. intros I. apply N. now right.
Qed.
Lemma dec_plain : forall n, ~ In "%"%char (bs (dec n)).
Proof. intros n. rewrite <- decz_nat. apply decz_no; [reflexivity|discriminate]. Qed.
Lemma zero_text : sstring zero_scanner = Some [].
Proof. reflexivity. Qed.
Lemma plain_text : forall k msg args, ~ In "%"%char msg -> message_text (mkMessage k zero_scanner msg args) = COk (Some msg).
Proof. intros k msg args N. unfold message_text. cbn [m_at m_msg]. rewrite zero_text. now rewrite sprintf_plain. Qed.
Lemma placed_text : forall k s x msg args b a, sstring s = Some (b :: x) ->
  sprintf (msg ++ bs "@ %d") (FText (b :: x) :: args ++ [FNum (start s)]) = Some a ->
  message_text (mkMessage k s msg args) = COk (Some a).
Proof. intros k s x msg args b a T H. unfold message_text. cbn [m_at m_msg m_args]. rewrite T. unfold offset. now rewrite H. Qed.

(** ** Kinds *)
Definition erase (r : reporter) : validator := mkValidator (r_known r) (map m_kind (r_msgs r)).
Lemma erase_add : forall m r, erase (add m r) = report (m_kind m) (erase r).
Proof. intros m r. unfold erase, add, report. cbn [r_known r_msgs v_known v_err]. now rewrite map_app. Qed.
Lemma complain_ok : forall k msg n args r r', complain k msg n args r = COk r' ->
  exists s, node_scanner n = Some s /\ r' = add (mkMessage k s (bs msg) args) r.
Proof. intros k msg n args r r' H. unfold complain, place_of in H. destruct (node_scanner n) as [s|]; [|discriminate]. injection H as <-. eauto. Qed.
Lemma clash_erase : forall ts names r r', clash_messages ts names r = COk r' -> name_clashes ts names (erase r) = COk (erase r').
Proof.
  induction ts as [|t ts IH]; intros names r r' H; cbn [clash_messages name_clashes] in *; [now injection H as <-|].
  destruct (one "named" t) as [named|]; auto. destruct (one "IDENT" named) as [ident|]; [|cbn [string_of cbind String.eqb]; auto].
  apply cbind_inv in H as (x & SX & H). rewrite SX. cbn [cbind]. destruct (String.eqb x ""); auto. apply cbind_inv in H as (r1 & C & H). apply IH in H.
  destruct (mem x names); [|injection C as <-; auto]. apply complain_ok in C as (s & _ & ->). now rewrite erase_add in H.
Qed.
Lemma arg_erase : forall ts r r', arg_messages ts r = COk r' -> macro_args ts (erase r) = COk (erase r').
Proof.
  induction ts as [|t ts IH]; intros r r' H; cbn [arg_messages macro_args] in *; [now injection H as <-|].
  apply cbind_inv in H as (x & SX & H). rewrite SX. cbn [cbind]. apply cbind_inv in H as (r1 & C & H). apply IH in H. cbn [erase v_known] in *.
  destruct (mem x (r_known r)); [|injection C as <-; auto]. apply complain_ok in C as (s & _ & ->). now rewrite erase_add in H.
Qed.
Lemma ops_erase : forall E err ms k n r s r', reporter_ops E err ms k n r = COk (s, r') -> validator_ops E ms k n (erase r) = COk (s, erase r').
Proof.
  intros E err ms k n r s r' H. destruct k; cbn [reporter_ops validator_ops] in *; try (injection H as <- <-; reflexivity).
  - unfold atom_messages in H. unfold validate_atom. destruct (one "IDENT" n) as [x|]; [|destruct (one "RE" n) as [x|]; [|injection H as <- <-; reflexivity]];
      apply cbind_inv in H as (t & T & H); rewrite T; cbn [cbind]; apply cbind_inv in H as (r1 & C & H); injection H as <- <-; cbn [erase v_known].
    + destruct (String.eqb t "@"); [now injection C as <-|]. destruct (mem t (r_known r)); [now injection C as <-|]. apply complain_ok in C as (p & _ & ->). now rewrite erase_add.
    + destruct (re_valid E (bs t)); [now injection C as <-|]. apply complain_ok in C as (p & _ & ->). now rewrite erase_add.
  - unfold call_messages in H. unfold validate_macro_call. apply cbind_inv in H as (x & SX & H). rewrite SX. cbn [cbind]. apply cbind_inv in H as (r1 & C & H). injection H as <- <-.
    destruct (lookup x ms) as [m|].
    + destruct (Nat.eqb _ _); injection C as <-; auto. now rewrite erase_add.
    + apply cbind_inv in C as (y & _ & C). apply complain_ok in C as (p & _ & ->). now rewrite erase_add.
  - unfold named_messages in H. unfold validate_named. destruct (one "IDENT" n) as [x|]; [|injection H as <- <-; reflexivity].
    apply cbind_inv in H as (t & T & H); rewrite T; cbn [cbind]; apply cbind_inv in H as (r1 & C & H); injection H as <- <-; cbn [erase v_known].
    destruct (mem t (r_known r)); [|now injection C as <-]. apply complain_ok in C as (p & _ & ->). now rewrite erase_add.
  - unfold macro_messages in H. unfold validate_macro. apply cbind_inv in H as (r1 & C & H). injection H as <- <-. apply arg_erase in C. rewrite C. reflexivity.
  - unfold quant_messages in H. unfold validate_quant. apply cbind_inv in H as (c & C & H). rewrite C. cbn [cbind]. destruct (Z.eqb c 1); [|injection H as <- <-; reflexivity].
    apply cbind_inv in H as (mn & MN & H). apply cbind_inv in H as (mx & MX & H). rewrite MN, MX. cbn [cbind]. injection H as <- <-.
    destruct (_ && _)%bool; auto. now rewrite erase_add.
  - unfold term_messages in H. unfold validate_term. destruct (all "grammar" n); [|injection H as <- <-; reflexivity].
    apply cbind_inv in H as (op & OP & H). rewrite OP. cbn [cbind]. destruct (String.eqb op ""); [|injection H as <- <-; reflexivity].
    apply cbind_inv in H as (r1 & C & H). injection H as <- <-. apply clash_erase in C. rewrite C. reflexivity.
Qed.
(** Walks with states that are seen through a function. *)
Lemma walk_through : forall {A B} (f : A -> B) ea eb, (forall k n st s st', ea k n st = COk (s, st') -> eb k n (f st) = COk (s, f st')) ->
  forall fuel k n st s st', walk ea (fun _ _ st => COk (None, st)) fuel k n st = COk (s, st') -> walk eb (fun _ _ st => COk (None, st)) fuel k n (f st) = COk (s, f st').
Proof.
  intros A B f ea eb H. induction fuel as [|fuel IH]; intros k n st s st' W; [discriminate|]. cbn [walk] in *.
  apply cbind_inv in W as ([s1 st1] & E1 & W). rewrite (H _ _ _ _ _ E1). cbn [cbind]. destruct (leaf_kind k); [now injection W as <- <-|].
  destruct (reaction s1) as [r|]; [now injection W as <- <-|]. apply cbind_inv in W as (c & C & W).
  assert (Q : forall l st c, walk_children (walk ea (fun _ _ st => COk (None, st)) fuel) l st = COk c ->
    walk_children (walk eb (fun _ _ st => COk (None, st)) fuel) l (f st) = COk (match c with inl (r, st) => inl (r, f st) | inr st => inr (f st) end)).
  { induction l as [|[k0 n0] l IHl]; intros st0 c0 D; cbn [walk_children] in *; [now injection D as <-|].
    apply cbind_inv in D as ([s2 st2] & E2 & D). rewrite (IH _ _ _ _ _ E2). cbn [cbind]. destruct (reaction s2); [now injection D as <-|auto]. }
  apply Q in C. rewrite C. destruct c as [[r2 st2]|st2]; cbn [cbind] in *; now injection W as <- <-.
Qed.
Lemma cycle_kinds : forall rt fuel n cs, cycle_messages rt fuel n = COk cs ->
  exists b, check_for_recursion rt fuel n = COk b /\ map m_kind cs = if b then [PossibleCycleDetected] else [].
Proof.
  intros rt fuel n cs H. unfold cycle_messages in H. unfold check_for_recursion. apply cbind_inv in H as (d & D & H). rewrite D. cbn [cbind]. unfold bad_routes in H. unfold has_cycle, search.
  destruct (walk_rules _ _ _) as [g|]; [|discriminate]. destruct (find_paths _ _ _ _ _ _ _ _) as [[ps h]|]; [|discriminate].
  exists (existsb (bad_route h) ps). split; auto. assert (X : existsb (bad_route h) ps = match filter (bad_route h) ps with [] => false | _ => true end).
  { clear. induction ps as [|p ps IH]; cbn; auto. destruct (bad_route h p); auto. }
  rewrite X. destruct (filter (bad_route h) ps) as [|p l]; cbn [map] in H; injection H as <-; reflexivity.
Qed.
Theorem kinds_agree : forall E err rt fuel n f, validate_messages E err rt fuel n = COk f -> validate E rt fuel n = COk (map m_kind (messages f)).
Proof.
  intros E err rt fuel n f H. unfold validate_messages in H. unfold validate. apply cbind_inv in H as (d & D & H). rewrite D. cbn [cbind].
  destruct (d_dupes d); [|injection H as <-; reflexivity]. apply cbind_inv in H as (r & R & H). apply cbind_inv in H as (cs & C & H). injection H as <-.
  unfold run_reporter in R. apply cbind_inv in R as ([s r1] & W & R). injection R as ->. unfold run_validator.
  apply (walk_through erase _ (validator_ops E (d_macros d))) in W; [|intros; eapply ops_erase; eauto]. change (erase (mkReporter (d_names d) [])) with (mkValidator (d_names d) []) in W.
  rewrite W. cbn [cbind]. apply cycle_kinds in C as (b & C & K). rewrite C. cbn [cbind messages]. rewrite map_app, K. reflexivity.
Qed.
