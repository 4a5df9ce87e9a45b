(** A checker for concrete grammar texts: what the front end makes of them, whatever the runtime does. *)
From Verif Require Import Base Scanner Syntax Engine Resolve Compile Parse Ast AstProofs WbnfAst Walker Build Recursion RecursionSpec RecursionProofs
  Validate Front FrontSpec FrontProofs RefsSpec.

Definition descends_b (d : graph) (rank : list (string * nat)) : bool :=
  let rk x := match lookup x rank with Some n => n | None => 0 end in
  forallb (fun kv : string * list string => forallb (fun y => Nat.ltb (rk y) (rk (fst kv))) (snd kv)) d.
Lemma descends_b_ok : forall d rank, descends_b d rank = true -> forall p, ~ cycle d p.
Proof.
  intros d rank H. apply (descends_acyclic d (fun x => match lookup x rank with Some n => n | None => 0 end)).
  intros x l y K J. unfold descends_b in H. rewrite forallb_forall in H. specialize (H _ (lookup_In _ _ _ K)). cbn [fst snd] in H.
  rewrite forallb_forall in H. apply Nat.ltb_lt. apply H. exact J.
Qed.

(** [Some r]: the text is valid, and [r] is what the builder gives. *)
Definition front_check (w : world) (wbnf : parsers) (depth fuel : nat) (txt : bytes) (rank : list (string * nat)) : option (anode * cres grammar) :=
  match load_text w wbnf depth fuel txt with
  | COk (inr n) =>
      match find_defined_rules fuel n with
      | COk d0 =>
          match d_dupes d0, run_validator (w_engine w) (d_macros d0) fuel n (mkValidator (d_names d0) []), collect_dangers fuel n with
          | [], COk v, COk d =>
              match v_err v with
              | [] => if descends_b d rank then Some (n, new_from_ast fuel n) else None
              | _ => None
              end
          | _, _, _ => None
          end
      | _ => None
      end
  | _ => None
  end.
Lemma front_check_ok : forall w wbnf depth fuel txt rank n r, front_check w wbnf depth fuel txt rank = Some (n, r) ->
  load_text w wbnf depth fuel txt = COk (inr n) /\ r = new_from_ast fuel n /\
  forall rt, runtime_ok rt -> validate (w_engine w) rt fuel n = COk [] /\
    build_text (with_runtime rt w) wbnf depth fuel txt = cbind r (fun g => COk (inr g)).
Proof.
  intros w wbnf depth fuel txt rank n r H. unfold front_check in H.
  destruct (load_text w wbnf depth fuel txt) as [[e|n']| |] eqn:L; try discriminate.
  destruct (find_defined_rules fuel n') as [d0| |] eqn:D0; try discriminate.
  destruct (d_dupes d0) eqn:DD; try discriminate.
  destruct (run_validator _ _ _ _ _) as [v| |] eqn:V; try discriminate.
  destruct (collect_dangers fuel n') as [d| |] eqn:D; try discriminate.
  destruct (v_err v) eqn:VE; try discriminate. destruct (descends_b d rank) eqn:DB; try discriminate. injection H as <- <-.
  split; auto. split; auto. intros rt OK.
  assert (VAL : validate (w_engine w) rt fuel n' = COk []).
  { unfold validate. rewrite D0. cbn [cbind]. rewrite DD, V. cbn [cbind].
    rewrite (check_accepts rt OK _ _ _ D (descends_b_ok _ _ DB)). cbn [cbind]. now rewrite VE. }
  split; auto. unfold build_text. rewrite load_text_runtime, L. cbn [cbind with_runtime w_engine w_runtime]. now rewrite VAL.
Qed.

(** Whether compiling the text panics. *)
Definition panics_b (w : world) (wbnf : parsers) (depth fuel : nat) (txt : bytes) (rank : list (string * nat)) : bool :=
  match front_check w wbnf depth fuel txt rank with
  | Some (_, r) => match cbind r (compile (w_engine w)) with CPanic => true | _ => false end
  | None => false
  end.
Lemma panics_b_ok : forall w wbnf depth fuel txt rank, panics_b w wbnf depth fuel txt rank = true ->
  forall rt, runtime_ok rt -> compile_text (with_runtime rt w) wbnf depth fuel txt = CPanic.
Proof.
  intros w wbnf depth fuel txt rank H rt OK. unfold panics_b in H.
  destruct (front_check w wbnf depth fuel txt rank) as [[n r]|] eqn:F; [|discriminate].
  destruct (front_check_ok _ _ _ _ _ _ _ _ F) as (_ & _ & B). destruct (B rt OK) as [_ B2].
  unfold compile_text. rewrite B2. cbn [with_runtime w_engine]. destruct r as [g| |]; cbn [cbind] in *; try discriminate; auto.
  destruct (compile (w_engine w) g); try discriminate. reflexivity.
Qed.

(** Whether the text is accepted, with the grammar. *)
Definition accepted_b (w : world) (wbnf : parsers) (depth fuel : nat) (txt : bytes) (rank : list (string * nat)) : option grammar :=
  match front_check w wbnf depth fuel txt rank with Some (_, COk g) => Some g | _ => None end.
Lemma accepted_b_ok : forall w wbnf depth fuel txt rank g, accepted_b w wbnf depth fuel txt rank = Some g ->
  forall rt, runtime_ok rt -> build_text (with_runtime rt w) wbnf depth fuel txt = COk (inr g).
Proof.
  intros w wbnf depth fuel txt rank g H rt OK. unfold accepted_b in H.
  destruct (front_check w wbnf depth fuel txt rank) as [[n r]|] eqn:F; [|discriminate].
  destruct (front_check_ok _ _ _ _ _ _ _ _ F) as (_ & _ & B). destruct (B rt OK) as [_ B2]. destruct r; try discriminate. injection H as <-. exact B2.
Qed.

(** No nested grammars and no macro definitions. *)
Fixpoint plain_b (n : anode) : bool :=
  match n with
  | ABranch b =>
      match lookup "grammar"%string b, lookup "macrodef"%string b with
      | None, None =>
          forallb (fun kv : string * children anode =>
            match snd kv with One c => plain_b c | Many cs => forallb plain_b cs end) b
      | _, _ => false
      end
  | _ => true
  end.
Lemma plain_b_ok : forall n, plain_b n = true -> plain_tree n.
Proof.
  intros n H b B. remember (ABranch b) as m. revert H b Heqm.
  induction B as [n|b0 name c m J B IH|b0 name cs c m J1 J2 B IH]; intros H b E; subst.
  - simpl in H. destruct (lookup "grammar" b); [discriminate|]. destruct (lookup "macrodef" b); [discriminate|auto].
  - apply (IH); auto. simpl in H. destruct (lookup "grammar" b0); [discriminate|]. destruct (lookup "macrodef" b0); [discriminate|].
    rewrite forallb_forall in H. exact (H _ J).
  - apply (IH); auto. simpl in H. destruct (lookup "grammar" b0); [discriminate|]. destruct (lookup "macrodef" b0); [discriminate|].
    rewrite forallb_forall in H. specialize (H _ J1). simpl in H. rewrite forallb_forall in H. auto.
Qed.

(** Whether validation itself panics. *)
Definition panics_early_b (w : world) (wbnf : parsers) (depth fuel : nat) (txt : bytes) : bool :=
  match load_text w wbnf depth fuel txt with
  | COk (inr n) =>
      match find_defined_rules fuel n with
      | COk d0 =>
          match d_dupes d0, run_validator (w_engine w) (d_macros d0) fuel n (mkValidator (d_names d0) []) with
          | [], CPanic => true
          | _, _ => false
          end
      | _ => false
      end
  | _ => false
  end.
Lemma panics_early_b_ok : forall w wbnf depth fuel txt, panics_early_b w wbnf depth fuel txt = true ->
  forall rt, compile_text (with_runtime rt w) wbnf depth fuel txt = CPanic.
Proof.
  intros w wbnf depth fuel txt H rt. unfold panics_early_b in H.
  destruct (load_text w wbnf depth fuel txt) as [[e|n]| |] eqn:L; try discriminate.
  destruct (find_defined_rules fuel n) as [d0| |] eqn:D0; try discriminate.
  destruct (d_dupes d0) eqn:DD; try discriminate.
  destruct (run_validator _ _ _ _ _) as [v| |] eqn:V; try discriminate.
  unfold compile_text, build_text. rewrite load_text_runtime, L. cbn [cbind with_runtime w_engine w_runtime].
  unfold validate. rewrite D0. cbn [cbind]. rewrite DD, V. reflexivity.
Qed.
