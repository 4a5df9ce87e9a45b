(** What all children of the generated types have in common. *)
From Verif Require Import Base Scanner Syntax Engine Resolve Compile Ast Codegen Types TypesSpec TypesProofs.
Local Open Scope string_scope.

(** The references, back references and named parts of a term, its nested grammars included, pass the tests. *)
Section Checks.
  Variables (fr fb : string -> bool) (fn : string -> term -> bool).
  Fixpoint checks (t : term) : bool :=
    match t with
    | TRule r => fr r
    | TREF i _ => fb i
    | TS _ | TRE _ | TExtRef _ => true
    | TSeq ts | TOneof ts | TStack ts => forallb checks ts
    | TDelim t sep _ _ _ => checks t && checks sep
    | TNamed n u => fn n u && checks u
    | TQuant t _ _ | TLookAhead t | TCut t => checks t
    | TScoped t g => checks t && forallb (fun kv => checks (snd kv)) g
    end%bool.
End Checks.

Section Builder.
  Variables (camel : string -> string) (rand : nat -> Z).
  Notation go_name := (go_name camel).
  Notation add_child := (add_child camel).
  Variables (fr fb : string -> bool) (fn : string -> term -> bool) (good : gchild -> Prop) (Inv : types -> Prop).
  Hypothesis good_unnamed : forall p q, good (GUnnamed p q).
  Hypothesis good_choice : forall p, good (GChoice p).
  Hypothesis good_rule : forall r, fr r = true -> r <> "@" /\ forall p ret q, good (GRef r p ret q).
  Hypothesis good_back : forall i, fb i = true -> forall p, good (GBackRef i p).
  Hypothesis good_token : forall n u, fn n u = true -> match u with TS _ | TRE _ | TCut _ => True | _ => False end -> forall p q, good (GToken n p q).
  Hypothesis good_named : forall n u, fn n u = true -> match u with TS _ | TRE _ | TCut _ => False | _ => True end -> forall p ret q, good (GRef n p ret q).
  Hypothesis no_stack : forall n p, ~ good (GStackRef n p).
  Hypothesis inv_add : forall p c tm, at_home p c -> good c -> Inv tm -> Inv (add_child p c tm).
  Hypothesis inv_good : forall tm k ty, Inv tm -> lookup k tm = Some ty -> Forall good (type_children ty).
  Notation checks := (checks fr fb fn).

  Lemma keeps_push' : forall p c, at_home p c -> good c -> keeps (fun st => COk (push camel p c st)) Inv.
  Proof. intros p c H G st st' E I. inversion E; subst. simpl. auto. Qed.
  Lemma no_addition : forall r cs b, Forall good cs -> stack_addition r b cs = b.
  Proof. intros r cs b F. induction F as [|c cs G F IH]; simpl; auto. destruct c; auto. exfalso. eapply no_stack; eauto. Qed.
  Lemma keeps_rules' : forall g, Forall (fun kv => forall p q kn i, keeps (walk_term camel rand (snd kv) p q kn i) Inv) g ->
    forall pre kn, keeps (walk_rules camel rand (walk_term camel rand) pre kn g) Inv.
  Proof.
    intros g F. induction F as [|[r t] g W F IH]; intros pre kn; cbn [walk_rules]; [apply keeps_ok|].
    intros st st' E I. set (typ := (pre ++ go_name r)%string) in *.
    destruct (walk_term camel rand t typ want_one (aset "@"%string (KStack r typ) kn) (rand (drawn st)) (mkT (tmap st) (S (drawn st))))
      as [st1| |] eqn:E1; try discriminate. cbn [cbind] in E.
    pose proof (W _ _ _ _ _ _ E1 I) as I1.
    destruct (finish_rule camel r typ st1) as [st2| |] eqn:E2; try discriminate. cbn [cbind] in E.
    apply (IH pre kn _ _ E). unfold finish_rule in E2. destruct (lookup _ _) as [ty|] eqn:L; try discriminate. inversion E2; subst.
    rewrite no_addition; eauto.
  Qed.
  Lemma walk_keeps' : forall t, checks t = true -> forall p q kn i, keeps (walk_term camel rand t p q kn i) Inv.
  Proof.
    induction t using term_ind'; intros C p q kn id; cbn [walk_term]; cbn [leaf_type]; cbn [TypesKeep.checks] in C;
      try (apply keeps_push'; [reflexivity|auto; fail]); try apply keeps_ok; try discriminate; try (apply IHt; auto; fail).
    - destruct (good_rule r C) as [NA G]. apply String.eqb_neq in NA. rewrite NA. destruct (lookup r kn) as [[ret|x p']|]; try (now apply keeps_panic).
      apply keeps_push'; [reflexivity|auto].
    - revert C. induction H as [|t ts W F IH]; intros C; [apply keeps_ok|]. cbn [forallb] in C. apply andb_true_iff in C as [C1 C2]. apply keeps_bind; auto.
    - assert (X : keeps ((fix alts (ts : list term) (st : tstate) : cres tstate :=
           match ts with
           | [] => COk st
           | t :: ts' => cbind (walk_term camel rand t p q kn (rand (drawn st)) (mkT (tmap st) (S (drawn st)))) (alts ts')
           end) ts) Inv).
      { revert C. induction H as [|t ts W F IH]; intros C; [apply keeps_ok|]. cbn [forallb] in C. apply andb_true_iff in C as [C1 C2].
        apply (keeps_bind Inv (fun st => walk_term camel rand t p q kn (rand (drawn st)) (mkT (tmap st) (S (drawn st))))); auto.
        intros st st' E I. eapply W; eauto. }
      intros st st' E I. apply (X _ _ E). simpl. apply inv_add; simpl; auto.
    - revert C. induction H as [|t ts W F IH]; intros C; [apply keeps_ok|]. cbn [forallb] in C. apply andb_true_iff in C as [C1 C2]. apply keeps_bind; auto.
    - apply andb_true_iff in C as [C1 C2].
      apply keeps_bind; [auto|]. destruct t2; try apply keeps_ok; try (apply IHt2; auto; fail).
      cbn [TypesKeep.checks] in C2. apply andb_true_iff in C2 as [C3 C4].
      assert (IHt : forall p q kn i, keeps (walk_term camel rand (TNamed name t2) p q kn i) Inv) by (apply IHt2; cbn [TypesKeep.checks]; now rewrite C3).
      destruct t2; try (apply IHt; auto; fail); (apply keeps_push'; [reflexivity|]); eapply good_token; eauto; exact Logic.I.
    - apply andb_true_iff in C as [C1 C2].
      assert (GO : match t with TS _ | TRE _ | TCut _ => False | _ => True end -> keeps (fun st => cbind (walk_term camel rand t (p ++ go_name n)%string q kn id st)
        (fun st => COk (push camel p (GRef n p (p ++ go_name n)%string q) st))) Inv).
      { intros M. apply keeps_bind; auto. apply keeps_push'; [reflexivity|]. eapply good_named; eauto. }
      destruct t; try (exact (GO Logic.I)); try (apply keeps_push'; [reflexivity|]; eapply good_token; eauto; exact Logic.I).
      cbn [TypesKeep.checks] in C2. destruct (good_rule _ C2) as [NA G]. apply String.eqb_neq in NA. rewrite NA.
      apply keeps_push'; [reflexivity|]. eapply good_named; eauto. exact Logic.I.
    - apply andb_true_iff in C as [C1 C2]. apply keeps_bind; [|auto]. apply keeps_rules'; auto.
      apply Forall_forall. intros kv I. rewrite forallb_forall in C2. rewrite Forall_forall in H. apply H; auto.
  Qed.
  Lemma types_keep : forall g tm, forallb (fun kv => checks (snd kv)) g = true -> make_types camel rand g = COk tm -> Inv [] -> Inv tm.
  Proof.
    intros g tm C E I. unfold make_types in E.
    destruct (walk_rules camel rand (walk_term camel rand) "" (merge_known camel "" g []) g (mkT [] 0)) as [st| |] eqn:W; try discriminate.
    inversion E; subst. refine (keeps_rules' g _ _ _ _ _ W I). apply Forall_forall. intros kv J. rewrite forallb_forall in C. apply walk_keeps'; auto.
  Qed.
End Builder.
