(** A checker for [patterns_grammar (well_grouped ...)] with the concrete regexp engine, for
    the examples. *)
From Verif Require Import Base Scanner Syntax Engine Resolve Compile Parse Regex RegexProofs PegSpec CompileProofs FlowSpec PanicSpec PanicProofs.
Local Open Scope Z_scope.

Fixpoint rooted (r : re) : bool :=
  match r with
  | RAssert ABegText => true
  | RCat a b => rooted a || match a with REps => rooted b | _ => false end
  | RGroup _ a => rooted a
  | _ => false
  end.

Lemma rooted_here : forall r st k, rooted r = true -> mpos st <> 0 -> mt r st k = None.
Proof.
  induction r as [|neg rs|a IHa b IHb|a IHa b IHb|g a IHa|g a IHa|n a IHa|a]; cbn [rooted mt]; intros st k H N; try discriminate; auto.
  - apply orb_true_iff in H as [H|H]; auto. destruct a; try discriminate. simpl. auto.
  - destruct a; try discriminate. simpl. destruct (Z.eqb_spec (mpos st) 0); auto; congruence.
Qed.

Lemma rooted_search : forall r rest pos prev a st, rooted r = true -> 0 <= pos -> search r pos prev rest = Some (a, st) -> a = 0.
Proof.
  induction rest as [|c rest IH]; intros pos prev a st R P H; simpl in H.
  - destruct (Z.eq_dec pos 0) as [->|N]; [|rewrite rooted_here in H; auto; discriminate].
    destruct (mt r _ Some); inversion H; auto.
  - destruct (mt r (mkM pos prev (c :: rest) []) Some) eqn:E.
    + destruct (Z.eq_dec pos 0) as [->|N]; [inversion H; auto|rewrite rooted_here in E; auto; discriminate].
    + eapply IH; [| |eauto]; auto. lia.
Qed.

Definition well_grouped_b (pat : bytes) : bool :=
  match parse_re (anchor ++ pat) with Some (r, n) => rooted r && (Nat.eqb n 1 || Nat.eqb n 2) | None => true end.
Lemma well_grouped_b_ok : forall pat, well_grouped_b pat = true -> well_grouped regex_engine pat.
Proof.
  intros pat H t locs F. unfold well_grouped_b in H. destruct (ok_shape _ regex_engine_ok _ _ _ F) as (a & b & gs & -> & _ & _ & _ & L & _).
  cbn [re_find re_groups regex_engine] in *. destruct (parse_re (anchor ++ pat)) as [[r n]|]; [|discriminate].
  apply andb_true_iff in H as [H1 H2]. destruct (search r 0 None t) as [[a' st]|] eqn:S; [|discriminate].
  inversion F; subst a. apply rooted_search in S; auto; [|lia]. subst a'. exists b, gs. split; [congruence|].
  apply orb_true_iff in H2 as [H2|H2]; apply Nat.eqb_eq in H2; lia.
Qed.

Definition grouped_b (w : option term) (x pre : bytes) : bool :=
  match apply_wrap w x pre with COk pat => well_grouped_b pat | _ => true end.
Lemma grouped_b_ok : forall w x pre, grouped_b w x pre = true -> forall pat, token_pattern w x pre pat -> well_grouped regex_engine pat.
Proof.
  intros w x pre H pat P. apply apply_wrap_spec in P. unfold grouped_b in H. rewrite P in H. apply well_grouped_b_ok; auto.
Qed.

Fixpoint patterns_b (w : option term) (t : term) : bool :=
  match t with
  | TRule _ | TExtRef _ => true
  | TS x => grouped_b w x (group (quote_meta x))
  | TRE x => grouped_b w x (group x)
  | TREF _ _ => false
  | TSeq ts | TOneof ts | TStack ts => forallb (patterns_b w) ts
  | TDelim t sep _ _ _ => patterns_b w t && patterns_b w sep
  | TLookAhead t | TQuant t _ _ | TNamed _ t | TCut t => patterns_b w t
  | TScoped t g => patterns_b (wrap_in g w) t && forallb (fun kv => patterns_b (wrap_in g w) (snd kv)) g
  end.

Lemma patterns_b_ok : forall t w, patterns_b w t = true -> patterns (well_grouped regex_engine) w t.
Proof.
  assert (L : forall ts, Forall (fun t => forall w, patterns_b w t = true -> patterns (well_grouped regex_engine) w t) ts ->
    forall w, forallb (patterns_b w) ts = true -> Forall (patterns (well_grouped regex_engine) w) ts).
  { intros ts F w H. rewrite forallb_forall in H. rewrite Forall_forall in *. auto. }
  induction t using term_ind'; intros w P; simpl in P; try exact Logic.I; try discriminate.
  - exact (grouped_b_ok _ _ _ P).
  - exact (grouped_b_ok _ _ _ P).
  - apply (patterns_list _ w ts). auto.
  - apply (patterns_list _ w ts). auto.
  - apply (patterns_list _ w ts). auto.
  - apply andb_true_iff in P as [P1 P2]. split; auto.
  - apply IHt; auto.
  - apply IHt; auto.
  - apply IHt; auto.
  - apply andb_true_iff in P as [P1 P2]. split; [apply IHt; auto|]. apply patterns_rules.
    rewrite forallb_forall in P2. rewrite Forall_forall in *. auto.
  - apply IHt; auto.
Qed.

Definition patterns_grammar_b (g : grammar) : bool := forallb (fun kv => patterns_b (lookup WrapRE g) (snd kv)) g.
Lemma patterns_grammar_b_ok : forall g, patterns_grammar_b g = true -> patterns_grammar (well_grouped regex_engine) g.
Proof.
  intros g H r t L. apply lookup_In in L. unfold patterns_grammar_b in H. rewrite forallb_forall in H. apply patterns_b_ok. apply (H _ L).
Qed.
