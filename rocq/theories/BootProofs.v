(** Proofs about the comparison of the two grammars of wbnf. *)
From Verif Require Import Base Scanner Syntax Engine Resolve Compile CompileProofs Parse StackSpec ReorderProofs ChainProofs WbnfGrammar
  Diff DiffSpec DiffProofs Front Boot StackProofs.

(** Equal terms are reorderings of each other when their maps are in order. *)
Lemma same_reordered : forall t u, same t u -> reordered t t -> maps_ok u -> reordered t u.
Proof.
  assert (L : forall ts, Forall (fun t => forall u, same t u -> reordered t t -> maps_ok u -> reordered t u) ts ->
    forall us, Forall2 same ts us -> Forall2 reordered ts ts -> Forall maps_ok us -> Forall2 reordered ts us).
  { intros ts F. induction F as [|t ts H F IH]; intros us S R M; inversion S; subst; constructor; inversion R; inversion M; subst; auto. }
  induction t using term_ind'; intros u S R M; inversion S; subst; try (constructor; fail).
  - inversion R; subst. constructor. apply L; auto. now apply maps_ok_list.
  - inversion R; subst. constructor. apply L; auto. now apply maps_ok_list.
  - inversion R; subst. constructor. apply L; auto. now apply maps_ok_list.
  - inversion R; subst. simpl in M. destruct M. constructor; auto.
  - inversion R; subst. constructor; auto.
  - inversion R; subst. constructor; auto.
  - inversion R; subst. constructor; auto.
  - inversion R as [| | | | | | | | | | | | |? ? ? ? R1 G]; subst. apply maps_ok_scoped in M as (M1 & M2 & M3). constructor; auto.
    inversion G as [? ? N N' C A B]; subst. constructor; auto. intros r v K.
    match goal with X : forall k v, lookup k g = Some v -> exists w, lookup k _ = Some w /\ same v w |- _ => destruct (X _ _ K) as (w & Kw & Sw) end.
    exists w. split; auto.
    apply (Forall_lookup (fun x => forall u, same x u -> reordered x x -> maps_ok u -> reordered x u) _ _ _ H K); auto.
    + destruct (B _ _ K) as (t' & K' & R'). rewrite K in K'. injection K' as <-. exact R'.
    + exact (Forall_lookup maps_ok _ _ _ M3 Kw).
  - inversion R; subst. constructor; auto.
Qed.

Lemma same_grammar_map : forall a b, same_grammar a b -> same_map a a -> NoDup (keys b) ->
  Forall (fun kv : string * term => maps_ok (snd kv)) b -> same_map a b.
Proof.
  intros a b [S1 S2] R N F. inversion R as [? ? Na _ C _ B]; subst. constructor; auto.
  intros r t K. destruct (S1 _ _ K) as (w & Kw & Sw). exists w. split; auto. apply same_reordered; auto.
  - destruct (B _ _ K) as (t' & K' & R'). rewrite K in K'. injection K' as <-. exact R'.
  - exact (Forall_lookup maps_ok _ _ _ F Kw).
Qed.

(** An equal verdict is never wrong: it is confirmed by [reflect.DeepEqual]. *)
Lemma grammars_equal_same : forall a b d, grammars a b = Some d -> gdiff_equal d = true ->
  NoDup (keys a) -> NoDup (keys b) ->
  Forall (fun kv : string * term => maps_ok (snd kv)) a -> Forall (fun kv : string * term => maps_ok (snd kv)) b ->
  same_grammar a b.
Proof.
  intros a b d G Q Na Nb Fa Fb. unfold grammars in G. destruct (diff_rules a b a) as [d'|]; [|discriminate].
  destruct (Bool.eqb (gdiff_equal d') (deep_equal_grammar a b)) eqn:X; [|discriminate]. injection G as ->.
  apply eqb_prop in X. rewrite Q in X. apply (same_rules a b); auto.
  intros k x y Kx Ky. apply deep_equal_same; [exact (Forall_lookup maps_ok _ _ _ Fa Kx)|exact (Forall_lookup maps_ok _ _ _ Fb Ky)].
Qed.

(** * Compilation keeps maps maps *)

Definition maps_grammar (g : grammar) : Prop := NoDup (keys g) /\ Forall (fun kv : string * term => maps_ok (snd kv)) g.

Lemma term_resolve_maps : forall o x t u, term_resolve o x t = COk u -> maps_ok u.
Proof.
  intros o x.
  assert (L : forall ts, Forall (fun t => forall u, term_resolve o x t = COk u -> maps_ok u) ts ->
    forall us, ctraverse (term_resolve o x) ts = COk us -> Forall maps_ok us).
  { induction 1; simpl; intros us H'; [injection H' as <-; auto|].
    apply cbind_ok in H' as (y & Y & H'). apply cbind_ok in H' as (ys & Ys & H'). injection H' as <-. auto. }
  induction t using term_ind'; intros u R; simpl in R; try discriminate; try (injection R as <-; exact Logic.I).
  - apply cbind_ok in R as (ts' & T & R). injection R as <-. apply maps_ok_list. eauto.
  - apply cbind_ok in R as (ts' & T & R). injection R as <-. apply (maps_ok_list ts'). eauto.
  - apply cbind_ok in R as (t' & T & R). apply cbind_ok in R as (s' & S & R). injection R as <-. simpl. eauto.
  - apply cbind_ok in R as (t' & T & R). injection R as <-. simpl. eauto.
  - apply cbind_ok in R as (t' & T & R). injection R as <-. simpl. eauto.
  - apply cbind_ok in R as (t' & T & R). injection R as <-. simpl. eauto.
  - eauto.
Qed.
Lemma Forall_aset : forall (P : term -> Prop) k v g, P v -> Forall (fun kv : string * term => P (snd kv)) g ->
  Forall (fun kv : string * term => P (snd kv)) (aset k v g).
Proof.
  intros P k v g V F. induction F as [|[k' v'] g H F IH]; simpl; [constructor; auto|].
  destruct (String.eqb k k'); constructor; auto.
Qed.
Lemma resolve_layers_maps : forall rule n ls i old g g2, resolve_layers rule n i old ls g = COk g2 -> maps_grammar g -> maps_grammar g2.
Proof.
  induction ls as [|l ls IH]; simpl; intros i old g g2 H M; [injection H as <-; auto|].
  apply cbind_ok in H as (t & T & H). apply IH in H; auto. destruct M. split; [now apply NoDup_aset|].
  apply Forall_aset; auto. eapply term_resolve_maps; eauto.
Qed.
Lemma resolve_stacks_maps : forall g g2, resolve_stacks g = COk g2 -> maps_grammar g -> maps_grammar g2.
Proof.
  intros g g2 H M. unfold resolve_stacks in H. destruct (existsb _ g); [|injection H as <-; auto].
  revert H. generalize g at 1. intros todo. revert g M. induction todo as [|[r t] todo IH]; simpl; intros g M H; [injection H as <-; auto|].
  destruct t; eauto. apply cbind_ok in H as (g1 & H1 & H). apply resolve_layers_maps in H1; eauto.
Qed.

Lemma keys_map_snd : forall (f : term -> term) (g : grammar), keys (map (fun kv => (fst kv, f (snd kv))) g) = keys g.
Proof. intros f g. unfold keys. rewrite map_map. apply map_ext. auto. Qed.
Lemma write_wrap_maps : forall t w, maps_ok t -> match w with Some u => maps_ok u | None => True end -> maps_ok (write_wrap w t).
Proof.
  assert (L : forall ts, Forall (fun t => forall w, maps_ok t -> match w with Some u => maps_ok u | None => True end -> maps_ok (write_wrap w t)) ts ->
    forall w, Forall maps_ok ts -> match w with Some u => maps_ok u | None => True end -> Forall maps_ok (map (write_wrap w) ts)).
  { induction 1; simpl; intros w M W; [auto|]. inversion M; subst. constructor; auto. }
  induction t using term_ind'; intros w M W; try (simpl in *; auto; fail).
  - apply maps_ok_list in M. apply (maps_ok_list (map (write_wrap w) ts)). auto.
  - apply (maps_ok_list ts) in M. apply (maps_ok_list (map (write_wrap w) ts)). auto.
  - simpl in *. destruct M. split; auto.
  - apply maps_ok_scoped in M as (M1 & M2 & M3). cbn [write_wrap]. cbv zeta.
    set (w' := match lookup WrapRE g with Some _ => _ | None => w end).
    assert (W' : match w' with Some u => maps_ok u | None => True end).
    { subst w'. destruct (lookup WrapRE g) as [x|] eqn:K; auto. exact (Forall_lookup maps_ok _ _ _ M3 K). }
    set (g' := map _ g).
    assert (G' : NoDup (keys g') /\ Forall (fun kv : string * term => maps_ok (snd kv)) g').
    { subst g'. rewrite keys_map_snd. split; auto. apply Forall_map. rewrite Forall_forall in *. intros kv I. simpl. apply H; auto. }
    apply maps_ok_scoped. split; [auto|]. destruct (lookup WrapRE g); [exact G'|]. destruct w as [x|]; [|exact G'].
    destruct (existsb _ g); [exact G'|]. destruct G'. split; [now apply NoDup_aset|now apply Forall_aset].
Qed.
Lemma compiled_grammar_maps : forall g b, compiled_grammar g = COk b -> maps_grammar g -> maps_grammar b.
Proof.
  intros g b H M. unfold compiled_grammar in H. apply cbind_ok in H as (g1 & R & H). injection H as <-.
  apply resolve_stacks_maps in R as [N F]; auto. split; [now rewrite keys_map_snd|].
  apply Forall_map. rewrite Forall_forall in *. intros kv I. simpl. apply write_wrap_maps; auto.
  destruct (lookup WrapRE g1) as [x|] eqn:K; auto. apply (F (WrapRE, x)). now apply lookup_In.
Qed.

(** * The start-up check *)

Lemma reordered_maps : forall t u, reordered t u -> maps_ok t.
Proof.
  assert (L : forall ts, Forall (fun t => forall u, reordered t u -> maps_ok t) ts -> forall us, Forall2 reordered ts us -> Forall maps_ok ts).
  { induction 1; intros us R; inversion R; subst; constructor; eauto. }
  induction t using term_ind'; intros u R; inversion R; subst; try exact Logic.I; try (simpl; eauto; fail).
  - apply maps_ok_list. eauto.
  - apply (maps_ok_list ts). eauto.
  - apply (maps_ok_list ts). eauto.
  - apply maps_ok_scoped. match goal with X : same_map g _ |- _ => inversion X as [? ? N N' C A B]; subst end.
    split; [eauto|]. split; auto. rewrite Forall_forall in *. intros [k v] I. destruct (B k v) as (w & _ & W); [apply In_lookup; auto|].
    exact (H _ I _ W).
Qed.
Lemma same_map_maps : forall a b, same_map a b -> maps_grammar a.
Proof.
  intros a b S. inversion S as [? ? N N' C A B]; subst. split; auto. rewrite Forall_forall. intros [k v] I.
  destruct (B k v) as (w & _ & W); [apply In_lookup; auto|]. eapply reordered_maps; eauto.
Qed.

(** Whenever the check passes, the grammar that was read parses like the one written by hand. *)
Lemma core_like : forall E g ps a qs, core E g = COk ps -> maps_grammar g ->
  compiled_grammar wbnf_grammar = COk a -> same_map a a -> compile E a = COk qs ->
  forall c f r s, parse_rule c f ps r s = parse_rule c f qs r s.
Proof.
  intros E g ps a qs H M A SA Q c f r s. unfold core in H. apply cbind_ok in H as (p1 & P1 & H). apply cbind_ok in H as (b & B & H).
  apply cbind_ok in H as (p2 & P2 & H). rewrite A in H. cbn [cbind] in H.
  destruct (grammars a b) as [d|] eqn:D; [|discriminate]. destruct (gdiff_equal d) eqn:X; [|discriminate].
  destruct (compiled_grammar_maps _ _ B M) as [NB FB].
  destruct (same_map_maps _ _ SA) as [NA FA].
  pose proof (same_grammar_map a b (grammars_equal_same _ _ _ D X NA NB FA FB) SA NB FB) as S.
  destruct (compile_same E a b qs S Q) as (qs' & Q' & R). rewrite H in Q'. injection Q' as <-. symmetry. apply R.
Qed.
