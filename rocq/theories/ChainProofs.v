(** What is proved of grammars without stacks carries over to stacks. *)
From Coq Require Import DecimalString DecimalNat.
From Verif Require Import Base Scanner ScannerSpec Syntax Engine Resolve Compile Parse PegSpec CompileProofs TopProofs FlowSpec
  WfSpec WfProofs StackSpec StackProofs ReorderProofs PanicSpec PanicProofs.
Local Open Scope nat_scope.

(** * Checking that names are distinct *)

Fixpoint nodup_b (l : list string) : bool :=
  match l with [] => true | x :: l' => negb (existsb (String.eqb x) l') && nodup_b l' end.
Lemma nodup_b_ok : forall l, nodup_b l = true -> NoDup l.
Proof.
  induction l as [|x l IH]; simpl; intros H; constructor; apply andb_true_iff in H as [H1 H2]; auto.
  intros I. apply negb_true_iff in H1. assert (existsb (String.eqb x) l = true); [|congruence].
  apply existsb_exists. exists x. split; auto. apply String.eqb_refl.
Qed.
Definition clear_b (g : grammar) : bool :=
  forallb (fun kv : string * term => match snd kv with
    | TStack ls => forallb (fun i => negb (has (level (fst kv) i) g)) (seq 1 (length ls - 1))
    | _ => true end) g.
Lemma clear_b_ok : forall g, clear_b g = true -> clear_names g.
Proof.
  intros g H r ls i L I. apply lookup_In in L. unfold clear_b in H. rewrite forallb_forall in H. apply H in L. simpl in L.
  rewrite forallb_forall in L. assert (J : In i (seq 1 (length ls - 1))) by (apply in_seq; lia). apply L in J.
  apply negb_true_iff in J. unfold has in J. destruct (lookup (level r i) g); auto; discriminate.
Qed.
Fixpoint tidy_b (t : term) : bool :=
  match t with
  | TRule _ | TS _ | TRE _ | TREF _ _ | TExtRef _ => true
  | TSeq ts | TOneof ts | TStack ts => forallb tidy_b ts
  | TDelim t sep _ _ _ => tidy_b t && tidy_b sep
  | TLookAhead t | TQuant t _ _ | TNamed _ t | TCut t => tidy_b t
  | TScoped t g => tidy_b t && nodup_b (keys g) && clear_b g && forallb (fun kv => tidy_b (snd kv)) g
  end.
Definition tidy_grammar_b (g : grammar) : bool := nodup_b (keys g) && clear_b g && forallb (fun kv => tidy_b (snd kv)) g.

Lemma same_map_intro : forall g, nodup_b (keys g) = true -> clear_b g = true -> Forall (fun kv : string * term => reordered (snd kv) (snd kv)) g ->
  same_map g g.
Proof.
  intros g N C F. apply nodup_b_ok in N. constructor; auto; [apply clear_b_ok; auto|].
  intros r t L. exists t. split; auto. apply lookup_In in L. rewrite Forall_forall in F. apply (F _ L).
Qed.
Lemma tidy_b_ok : forall t, tidy_b t = true -> reordered t t.
Proof.
  assert (L : forall ts, Forall (fun t => tidy_b t = true -> reordered t t) ts -> forallb tidy_b ts = true -> Forall2 reordered ts ts).
  { induction 1; simpl; intros Q; constructor; apply andb_true_iff in Q as [? ?]; auto. }
  induction t using term_ind'; simpl; intros Q; try (constructor; auto; fail).
  - apply andb_true_iff in Q as [? ?]. constructor; auto.
  - apply andb_true_iff in Q as [Q G]. apply andb_true_iff in Q as [Q C]. apply andb_true_iff in Q as [Q N]. constructor; auto.
    apply same_map_intro; auto. rewrite forallb_forall in G. rewrite Forall_forall in H |- *. auto.
Qed.
Lemma tidy_grammar_b_ok : forall g, tidy_grammar_b g = true -> same_map g g.
Proof.
  intros g Q. unfold tidy_grammar_b in Q. apply andb_true_iff in Q as [Q G]. apply andb_true_iff in Q as [Q C].
  apply same_map_intro; auto. rewrite forallb_forall in G. rewrite Forall_forall. intros x I. apply tidy_b_ok; auto.
Qed.

(** * Stacks *)

(** A compiled grammar behaves like its chains of rules. *)
Lemma behaves_as : forall E g g2 ps, same_map g g -> unstacked g g2 -> NoDup (keys g2) -> compile E g = COk ps ->
  exists ps2, compile E g2 = COk ps2 /\ forall c f r s, parse_rule c f ps r s = parse_rule c f ps2 r s.
Proof. intros E g g2 ps S U N C. destruct (stacks_are_sugar E g g2 S U N) as [A _]. auto. Qed.

Theorem chain_terminates : forall c g g2 ps, cf_esc c = None -> tame c -> compile (cf_eng c) g = COk ps ->
  same_map g g -> unstacked g g2 -> NoDup (keys g2) -> no_stack_grammar g2 = true -> well_founded_grammar (cf_eng c) g2 ->
  forall r s, in_range s -> exists f0 o, fst o <> RFuel /\ forall f, f0 <= f -> parse_rule c f ps r s = o.
Proof.
  intros c g g2 ps NE T C S U N NS WF r s R. destruct (behaves_as _ _ _ _ S U N C) as (ps2 & C2 & B).
  destruct (parse_terminates c g2 g2 ps2 NE T C2 (no_stack_resolve_all _ NS) WF r s R) as (f0 & o & X & Y).
  exists f0, o. split; auto. intros f L. rewrite B. auto.
Qed.

Theorem chain_no_panic : forall c g g2 ps, cf_esc c = None -> tame c -> compile (cf_eng c) g = COk ps ->
  same_map g g -> unstacked g g2 -> NoDup (keys g2) -> no_stack_grammar g2 = true ->
  callable_grammar g2 = true -> patterns_grammar (well_grouped (cf_eng c)) g2 ->
  forall f r s, in_range s -> lookup r g <> None -> fst (parse_rule c f ps r s) <> RPanic.
Proof.
  intros c g g2 ps NE T C S U N NS CA P f r s R D. destruct (behaves_as _ _ _ _ S U N C) as (ps2 & C2 & B).
  rewrite B. apply (parse_no_panic c g2 g2 ps2 NE T C2 (no_stack_resolve_all _ NS) N CA P f r s R).
  destruct (lookup r g) as [t|] eqn:L; [|congruence].
  destruct (is_nonempty_stack_dec t) as [(l & ls & ->)|Q].
  - destruct (us_layer _ _ U r (l :: ls) 0 l L eq_refl) as (u & LU & _). change (level r 0) with r in LU. congruence.
  - rewrite (us_rule _ _ U r t L Q). discriminate.
Qed.

Lemma plain_terminates : forall c g ps, cf_esc c = None -> tame c -> compile (cf_eng c) g = COk ps ->
  no_stack_grammar g = true -> well_founded_grammar (cf_eng c) g ->
  forall r s, in_range s -> exists f0 o, fst o <> RFuel /\ forall f, f0 <= f -> parse_rule c f ps r s = o.
Proof. intros c g ps NE T C NS. apply (parse_terminates c g g ps NE T C (no_stack_resolve_all _ NS)). Qed.

Lemma plain_no_panic : forall c g ps, cf_esc c = None -> tame c -> compile (cf_eng c) g = COk ps ->
  no_stack_grammar g = true -> NoDup (keys g) -> callable_grammar g = true -> patterns_grammar (well_grouped (cf_eng c)) g ->
  forall f r s, in_range s -> lookup r g <> None -> fst (parse_rule c f ps r s) <> RPanic.
Proof. intros c g ps NE T C NS. apply (parse_no_panic c g g ps NE T C (no_stack_resolve_all _ NS)). Qed.

(** * Compiling stacks *)

Lemma compile_resolves : forall E g ps, compile E g = COk ps -> resolve_stacks g = COk (p_grammar ps).
Proof.
  intros E g ps H. unfold compile in H. apply cbind_ok in H as (g1 & H1 & H). apply cbind_ok in H as (rules & H2 & H).
  inversion H; subst. auto.
Qed.

Theorem compile_unstacks : forall E g ps, NoDup (keys g) -> clear_names g -> compile E g = COk ps ->
  unstacked g (p_grammar ps) /\ NoDup (keys (p_grammar ps)) /\
  (forall r ls, lookup r (p_grammar ps) = Some (TStack ls) -> ls = []).
Proof.
  intros E g ps N C H. apply compile_resolves in H. destruct (resolve_stacks_spec _ _ N C H) as (U & N2 & _).
  split; [auto|]. split; [auto|]. intros r ls L. eapply unstacked_no_stack; eauto.
Qed.

Lemma level_not_at : forall r i, r <> "@"%string -> level r i <> "@"%string.
Proof.
  intros r [|i] NE H; [auto|]. unfold level in H. destruct r as [|a r]; simpl in H; inversion H; subst.
  - assert (D : (NilEmpty.string_of_uint (Nat.to_uint (Datatypes.S i)) <> "")%string).
    { intros Z. change ""%string with (NilEmpty.string_of_uint Decimal.Nil) in Z.
      assert (Some (Nat.to_uint (Datatypes.S i)) = Some Decimal.Nil).
      { rewrite <- (NilEmpty.usu (Nat.to_uint (Datatypes.S i))), Z. reflexivity. }
      inversion H0 as [Z2]. pose proof (DecimalNat.Unsigned.of_to (Datatypes.S i)) as OT. rewrite Z2 in OT. discriminate. }
    congruence.
  - destruct r; discriminate.
Qed.

Theorem no_at_left : forall g g2 r layers i t u, unstacked g g2 -> r <> "@"%string ->
  lookup r g = Some (TStack layers) -> nth_error layers i = Some t -> lookup (level r i) g2 = Some u -> ~ mentions "@" u.
Proof.
  intros g g2 r layers i t u U NE L NT LU. destruct (us_layer _ _ U _ _ _ _ L NT) as (u' & LU' & P).
  assert (u' = u) by congruence. subst u'. eapply put_at_gone; [|exact P].
  unfold next_level. destruct (Nat.eqb _ _); auto. apply level_not_at; auto.
Qed.
