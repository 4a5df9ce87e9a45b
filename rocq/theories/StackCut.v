(** Cut points in the layers of precedence stacks. *)
From Verif Require Import Base Scanner Syntax Engine Resolve Compile Parse PegSpec StackSpec CompileProofs TopProofs StackProofs ReorderProofs ChainProofs.

(** The term without its cut points. *)
Fixpoint uncut (t : term) : term :=
  match t with
  | TSeq ts => TSeq (map uncut ts)
  | TOneof ts => TOneof (map uncut ts)
  | TDelim t sep a cs ce => TDelim (uncut t) (uncut sep) a cs ce
  | TLookAhead t => TLookAhead (uncut t)
  | TQuant t mn mx => TQuant (uncut t) mn mx
  | TNamed n t => TNamed n (uncut t)
  | TCut t => uncut t
  | TRule _ | TS _ | TRE _ | TREF _ _ | TExtRef _ | TStack _ | TScoped _ _ => t
  end.
(** The grammar without the cut points in the layers of its stacks. *)
Definition uncut_rule (t : term) : term := match t with TStack ls => TStack (map uncut ls) | _ => t end.
Definition uncut_layers (g : grammar) : grammar := map (fun kv : string * term => (fst kv, uncut_rule (snd kv))) g.

Lemma put_uncut : forall t x u, put x t u -> put x (uncut t) u.
Proof.
  assert (L : forall ts x us, Forall (fun t => forall x u, put x t u -> put x (uncut t) u) ts -> Forall2 (put x) ts us -> Forall2 (put x) (map uncut ts) us).
  { intros ts x us F F2. revert F. induction F2; intros F; simpl; constructor; inversion F; subst; auto. }
  induction t using term_ind'; intros x u P; inversion P; subst; simpl; try (constructor; auto; fail); auto.
Qed.
Lemma reordered_uncut : forall t, reordered t t -> reordered (uncut t) (uncut t).
Proof.
  assert (L : forall ts, Forall (fun t => reordered t t -> reordered (uncut t) (uncut t)) ts -> forall us, us = ts -> Forall2 reordered ts us ->
    Forall2 reordered (map uncut ts) (map uncut ts)).
  { intros ts F. induction F as [|t ts H F IH]; intros us -> F2; simpl; constructor; inversion F2; subst; eauto. }
  induction t using term_ind'; intros R; inversion R; subst; simpl; try (constructor; eauto; fail); auto.
Qed.

Lemma lookup_uncut : forall g r, lookup r (uncut_layers g) = option_map uncut_rule (lookup r g).
Proof. induction g as [|[k t] g IH]; intros r; simpl; auto. destruct (String.eqb r k); simpl; auto. Qed.
Lemma keys_uncut : forall g, keys (uncut_layers g) = keys g.
Proof. induction g as [|[k t] g IH]; simpl; auto. unfold keys in *. simpl. f_equal. exact IH. Qed.
Lemma uncut_stack : forall t ls, uncut_rule t = TStack ls -> exists ls0, t = TStack ls0 /\ ls = map uncut ls0.
Proof. intros [] ls E; simpl in E; try discriminate. inversion E; subst. eauto. Qed.

Lemma same_uncut : forall g, same_map g g -> same_map (uncut_layers g) (uncut_layers g).
Proof.
  intros g S. inversion S as [? ? N _ C _ X]; subst. constructor; rewrite ?keys_uncut; auto.
  - intros r ls i L I. rewrite lookup_uncut in *. destruct (lookup r g) as [t|] eqn:E; simpl in L; [|discriminate]. inversion L as [L'].
    apply uncut_stack in L' as (ls0 & -> & ->). rewrite map_length in I. rewrite (C _ _ _ E I). auto.
  - intros r t L. exists t. split; auto. rewrite lookup_uncut in L. destruct (lookup r g) as [t0|] eqn:E; simpl in L; [|discriminate]. inversion L; subst.
    destruct (X _ _ E) as (t1 & E1 & R). assert (t1 = t0) by congruence. subst. destruct t0; simpl; auto. inversion R; subst. constructor.
    match goal with F : Forall2 reordered _ _ |- _ => revert F end. clear. induction ts as [|t ts IH]; intros F; simpl; constructor; inversion F; subst; auto using reordered_uncut.
Qed.

Lemma unstacked_uncut : forall g g2, unstacked g g2 -> unstacked (uncut_layers g) g2.
Proof.
  intros g g2 [A B C]. constructor.
  - intros r t L NS. rewrite lookup_uncut in L. destruct (lookup r g) as [t0|] eqn:E; simpl in L; [|discriminate]. inversion L; subst.
    destruct t0; simpl in *; try (apply A; auto; fail). destruct ts as [|l ls]; [apply A; auto|]. exfalso. eapply NS. reflexivity.
  - intros r ls i t L NE. rewrite lookup_uncut in L. destruct (lookup r g) as [t0|] eqn:E; simpl in L; [|discriminate]. inversion L as [L'].
    apply uncut_stack in L' as (ls0 & -> & ->). rewrite nth_error_map in NE. destruct (nth_error ls0 i) as [l|] eqn:El; simpl in NE; [|discriminate].
    inversion NE; subst. rewrite map_length. destruct (B _ _ _ _ E El) as (u & U & P). exists u. split; auto using put_uncut.
  - intros x NX. rewrite lookup_uncut. destruct (C _ NX) as [K|(r & ls & i & L & I & ->)].
    + left. destruct (lookup x g); simpl; congruence.
    + right. exists r, (map uncut ls), i. rewrite lookup_uncut, L, map_length. auto.
Qed.

Lemma compile_uncut : forall E g ps, same_map g g -> compile E g = COk ps ->
  exists ps', compile E (uncut_layers g) = COk ps' /\ forall c f r s, parse_rule c f ps r s = parse_rule c f ps' r s.
Proof.
  intros E g ps S C. inversion S as [? ? N _ CL _ _]; subst. destruct (compile_unstacks _ _ _ N CL C) as (U & N2 & _).
  destruct (proj1 (stacks_are_sugar E g _ S U N2) _ C) as (ps2 & C2 & Q2).
  destruct (proj2 (stacks_are_sugar E _ _ (same_uncut _ S) (unstacked_uncut _ _ U) N2) _ C2) as (ps' & C' & Q').
  exists ps'. split; auto. intros. rewrite Q2, Q'. auto.
Qed.
