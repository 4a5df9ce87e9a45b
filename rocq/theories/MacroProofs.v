(** Building a term with recursive macros never ends. *)
From Verif Require Import Base Scanner Syntax Resolve Ast AstProofs WbnfAst StrLit Build TextSpec MacroSpec RefsProofs TextProofs.

Lemma ctraverse_all : forall A B (f : A -> cres B) l l', ctraverse f l = COk l' -> forall x, In x l -> exists y, f x = COk y.
Proof.
  intros A B f. induction l as [|a l IH]; simpl; intros l' H x I; [destruct I|]. apply cbind_inv in H as (y & Y & H). apply cbind_inv in H as (m & M & _).
  destruct I as [<-|I]; eauto.
Qed.
Lemma quants_built : forall (f : anode -> term -> cres term) qs acc u, fold_left (fun acc q => cbind acc (f q)) qs acc = COk u ->
  (exists t, acc = COk t) /\ forall q, In q qs -> exists t v, f q t = COk v.
Proof.
  intros f. induction qs as [|q qs IH]; simpl; intros acc u H; [split; [eauto|intros q []]|]. destruct (IH _ _ H) as [(v & V) K].
  apply cbind_inv in V as (t & -> & V). split; [eauto|]. intros q' [<-|I]; eauto.
Qed.
Lemma grammar_built : forall rec g gr, build_grammar rec g = COk gr -> forall stmt p t, In stmt (all "stmt" g) -> one "prod" stmt = Some p -> In t (all "term" p) ->
  exists u, rec t = COk u.
Proof.
  intros rec g gr H. unfold build_grammar in H. revert H. generalize (all "stmt" g). intro ss.
  assert (G : forall ss acc gr, fold_left (fun acc stmt => cbind acc (fun g => match one "prod" stmt with
      | None => COk g
      | Some prod => cbind (build_prod rec prod) (fun t => cbind (string_of (one "IDENT" prod)) (fun name => COk (aset name t g)))
      end)) ss acc = COk gr -> (exists g0, acc = COk g0) /\ forall stmt p t, In stmt ss -> one "prod" stmt = Some p -> In t (all "term" p) -> exists u, rec t = COk u).
  { clear. induction ss as [|s ss IH]; simpl; intros acc gr H; [split; [eauto|intros ? ? ? []]|]. destruct (IH _ _ H) as [(g1 & A) K].
    apply cbind_inv in A as (g0 & -> & A). split; [eauto|]. intros stmt p t [<-|I] O T; [|eauto]. rewrite O in A. apply cbind_inv in A as (v & V & _).
    unfold build_prod in V. apply cbind_inv in V as (ts & TS & _). eapply ctraverse_all; eauto. }
  intro H. apply (G _ _ _ H).
Qed.

Lemma built_uses : forall ms,
  (forall t b, uses ms t b -> forall f u, build_term ms f t = COk u -> exists f' v, f' < f /\ build_term ms f' b = COk v) /\
  (forall n b, uses_named ms n b -> forall f u, build_named ms (build_term ms f) n = COk u -> exists f' v, f' <= f /\ build_term ms f' b = COk v) /\
  (forall a b, uses_atom ms a b -> forall f u, build_atom ms (build_term ms f) a = COk u -> exists f' v, f' <= f /\ build_term ms f' b = COk v).
Proof.
  intro ms. apply uses_mutind.
  - intros t t' b I U IH f u H. destruct f as [|f]; [discriminate|]. cbn [build_term] in H. destruct (all "term" t) eqn:T; [destruct I|]. rewrite <- T in *.
    apply cbind_inv in H as (ts & TS & H). destruct (ctraverse_all _ _ _ _ _ TS _ I) as (v & V). destruct (IH _ _ V) as (f' & w & L & W). exists f', w. split; [lia|auto].
  - intros t n b T N U IH f u H. destruct f as [|f]; [discriminate|]. cbn [build_term] in H. rewrite T, N in H. cbn [deref cbind] in H.
    apply cbind_inv in H as (x & X & H). destruct (IH _ _ X) as (f' & w & L & W). exists f', w. split; [lia|auto].
  - intros t q n b T Q C N U IH f u H. destruct f as [|f]; [discriminate|]. cbn [build_term] in H. rewrite T in H. apply cbind_inv in H as (n' & _ & H).
    apply cbind_inv in H as (x & _ & H). apply quants_built in H as [_ H]. destruct (H q) as (t0 & v & V); [now apply -> in_rev in Q|].
    unfold build_quant in V. rewrite C in V. cbn [cbind Z.eqb Pos.eqb] in V. apply cbind_inv in V as (op & _ & V). apply cbind_inv in V as (a & _ & V).
    rewrite N in V. cbn [deref cbind] in V. apply cbind_inv in V as (sep & S & _). destruct (IH _ _ S) as (f' & w & L & W). exists f', w. split; [lia|auto].
  - intros t op g stmt p t' b NE O N1 N2 G I P I' U IH f u H. destruct f as [|f]; [discriminate|]. cbn [build_term] in H. destruct (all "term" t) eqn:T; [congruence|].
    apply cbind_inv in H as (ts & TS & H). rewrite O in H. cbn [cbind] in H. rewrite (proj2 (String.eqb_neq _ _) N1), (proj2 (String.eqb_neq _ _) N2), G in H.
    apply cbind_inv in H as (gr & GR & _). destruct (grammar_built _ _ _ GR _ _ _ I P I') as (v & V). destruct (IH _ _ V) as (f' & w & L & W). exists f', w. split; [lia|auto].
  - intros n a b A U IH f u H. unfold build_named in H. rewrite A in H. cbn [deref cbind] in H. apply cbind_inv in H as (x & X & _). eauto.
  - intros a t b (br & -> & K) O U IH f u H. cbn [build_atom] in H. rewrite K in H. cbn [String.eqb Ascii.eqb Bool.eqb] in H. rewrite O in H. cbn [deref cbind] in H.
    apply cbind_inv in H as (v & V & _). destruct (IH _ _ V) as (f' & w & L & W). exists f', w. split; [lia|auto].
  - intros a t b (br & -> & K) O U IH f u H. cbn [build_atom] in H. rewrite K in H. cbn [String.eqb Ascii.eqb Bool.eqb] in H. rewrite O in H. cbn [deref cbind] in H.
    destruct (IH _ _ H) as (f' & w & L & W). exists f', w. split; [lia|auto].
  - intros a c name m b (br & -> & K) O N L B f u H. cbn [build_atom] in H. rewrite K in H. cbn [String.eqb Ascii.eqb Bool.eqb] in H. rewrite O in H. cbn [deref cbind] in H.
    unfold expand_macro in H. rewrite N in H. cbn [cbind] in H. rewrite L in H. cbn [deref cbind] in H. rewrite B in H. cbn [deref cbind] in H.
    apply cbind_inv in H as (v & V & _). exists f, v. auto.
Qed.
Theorem built_founded : forall ms f t u, build_term ms f t = COk u -> Acc (fun b t => uses ms t b) t.
Proof.
  intro ms. induction f as [f IH] using lt_wf_ind. intros t u H. constructor. intros b U. destruct (proj1 (built_uses ms) _ _ U _ _ H) as (f' & v & L & V). eauto.
Qed.
Lemma acc_loop : forall A (R : A -> A -> Prop) x, Acc R x -> ~ R x x.
Proof. intros A R x H. induction H as [x _ IH]. intro L. exact (IH x L L). Qed.
(** A grammar is only built when no macro that it uses leads back to itself. *)
Theorem grammar_founded : forall f n g, new_from_ast f n = COk g -> exists ms, collect_macros f n = COk ms /\
  forall stmt p t, In stmt (all "stmt" n) -> one "prod" stmt = Some p -> In t (all "term" p) -> Acc (fun b t => uses ms t b) t.
Proof.
  intros f n g H. unfold new_from_ast in H. apply cbind_inv in H as (ms & M & H). apply cbind_inv in H as (g0 & B & _). exists ms. split; auto.
  intros stmt p t I O T. destruct (grammar_built _ _ _ B _ _ _ I O T) as (u & U). eapply built_founded; eauto.
Qed.

(** One level of building, with what is below it left open. *)
Definition build_step (ms : macros) (rec : anode -> cres term) (t : anode) : cres term :=
  match all "term" t with
  | _ :: _ =>
      cbind (ctraverse rec (all "term" t)) (fun ts =>
      cbind (one_op t) (fun op =>
      if String.eqb op "|" then COk (TOneof ts)
      else if String.eqb op ">" then COk (TStack ts)
      else
        let inner := match ts with [x] => x | _ => TSeq ts end in
        match all "grammar" t with
        | [g] => cbind (build_grammar rec g) (fun nested => COk (TScoped inner nested))
        | _ => COk inner
        end))
  | [] =>
      cbind (deref (one "named" t)) (fun n =>
      cbind (build_named ms rec n) (fun x =>
      fold_left (fun acc q => cbind acc (build_quant ms rec q)) (rev (all "quant" t)) (COk x)))
  end.
Lemma build_step_eq : forall ms k t, build_term ms (S k) t = build_step ms (build_term ms k) t.
Proof. reflexivity. Qed.
Theorem first_uses_dives : forall ms (T : anode -> Prop), (forall t, T t -> exists u, T u /\ first_uses ms t u) ->
  forall f t, T t -> build_term ms f t = CDiv.
Proof.
  intros ms T H. induction f as [|f IH]; intros t I; [reflexivity|]. rewrite build_step_eq. destruct (H t I) as (u & J & F). specialize (IH u J).
  unfold build_step. destruct F as [t u us A|t n a c name m b A N O K C S L B].
  - rewrite A. cbn [ctraverse]. rewrite IH. reflexivity.
  - rewrite A, N. cbn [deref cbind]. unfold build_named. rewrite O. cbn [deref cbind]. destruct K as (br & -> & K). cbn [build_atom]. rewrite K.
    cbn [String.eqb Ascii.eqb Bool.eqb]. rewrite C. cbn [deref cbind]. unfold expand_macro. rewrite S. cbn [cbind]. rewrite L. cbn [deref cbind]. rewrite B.
    cbn [deref cbind]. rewrite IH. reflexivity.
Qed.

(** * Expansion *)

Lemma arg_index_some : forall args r i j, arg_index r args i = COk (Some j) -> exists k, j = i + k /\ names_param args r k.
Proof.
  induction args as [|a args IH]; intros r i j H; [discriminate|]. cbn [arg_index] in H. apply cbind_inv in H as (x & X & H).
  destruct (String.eqb x r) eqn:Q.
  - injection H as <-. apply String.eqb_eq in Q. subst x. exists 0. split; [lia|]. now constructor.
  - apply String.eqb_neq in Q. destruct (IH _ _ _ H) as (k & -> & N). exists (S k). split; [lia|]. econstructor; eauto.
Qed.
Lemma arg_index_none : forall args r i, arg_index r args i = COk None -> forall k, ~ names_param args r k.
Proof.
  induction args as [|a args IH]; intros r i H k N; [inversion N|]. cbn [arg_index] in H. apply cbind_inv in H as (x & X & H).
  destruct (String.eqb x r) eqn:Q; [discriminate|]. apply String.eqb_neq in Q. inversion N; subst; [congruence|]. eapply IH; eauto.
Qed.
Section Expansion.
  Variables (ms : macros) (rec : anode -> cres term) (macro node : anode).
  Definition cb (t : term) : cres term :=
    match t with
    | TRule r => cbind (arg_index r (all "args" macro) 0) (fun i =>
        match i with
        | Some i => cbind (opanic (nth_error (all "term" node) i)) rec
        | None => COk t
        end)
    | _ => COk t
    end.
  Let param (r : string) : Prop := exists i, names_param (all "args" macro) r i.
  Let value (r : string) (v : term) : Prop := exists i a, names_param (all "args" macro) r i /\ nth_error (all "term" node) i = Some a /\ rec a = COk v.
  Lemma fix_substituted : forall t u, exposed t = true -> fix_termc cb t = COk u -> substituted param value t u.
  Proof.
    assert (LS : forall ts us, Forall (fun t => forall u, exposed t = true -> fix_termc cb t = COk u -> substituted param value t u) ts ->
      forallb exposed ts = true -> ctraverse (fix_termc cb) ts = COk us -> Forall2 (substituted param value) ts us).
    { induction ts as [|t ts IH]; simpl; intros us F X H; [injection H as <-; constructor|]. inversion F; subst. apply andb_true_iff in X as [X1 X2].
      apply cbind_inv in H as (y & Y & H). apply cbind_inv in H as (m & M & H). injection H as <-. constructor; auto. }
    induction t using term_ind'; intros u X F; cbn [fix_termc exposed] in *; try discriminate.
    - cbn [cb] in F. apply cbind_inv in F as (i & I & F). destruct i as [i|].
      + destruct (arg_index_some _ _ _ _ I) as (k & -> & N). apply cbind_inv in F as (a & A & F). unfold opanic in A.
        destruct (nth_error (all "term" node) (0 + k)) eqn:T; [|discriminate]. injection A as ->. apply su_param; [exists k; auto|]. exists k, a. auto.
      + injection F as <-. apply su_rule. intros (k & N). eapply arg_index_none; eauto.
    - injection F as <-. constructor.
    - injection F as <-. constructor.
    - injection F as <-. constructor.
    - injection F as <-. constructor.
    - apply cbind_inv in F as (us & U & F). injection F as <-. constructor. eapply LS; eauto.
    - apply cbind_inv in F as (us & U & F). injection F as <-. constructor. eapply LS; eauto.
    - apply cbind_inv in F as (us & U & F). injection F as <-. constructor. eapply LS; eauto.
    - apply andb_true_iff in X as [X1 X2]. apply cbind_inv in F as (t' & T & F). apply cbind_inv in F as (s' & S & F). injection F as <-. constructor; auto.
    - apply cbind_inv in F as (t' & T & F). injection F as <-. constructor; auto.
    - apply cbind_inv in F as (t' & T & F). injection F as <-. constructor; auto.
    - apply cbind_inv in F as (t' & T & F). injection F as <-. constructor; auto.
  Qed.
End Expansion.
Theorem expansion_substitutes : forall ms rec node u, expand_macro ms rec node = COk u ->
  exists name macro body t, string_of (one "name" node) = COk name /\ lookup name ms = Some macro /\ one "term" macro = Some body /\ rec body = COk t /\
    (exposed t = true ->
     substituted (fun r => exists i, names_param (all "args" macro) r i)
                 (fun r v => exists i a, names_param (all "args" macro) r i /\ nth_error (all "term" node) i = Some a /\ rec a = COk v) t u).
Proof.
  intros ms rec node u H. unfold expand_macro in H. apply cbind_inv in H as (name & N & H). apply cbind_inv in H as (macro & M & H).
  apply cbind_inv in H as (body & B & H). apply cbind_inv in H as (t & T & H). apply deref_inv in M, B. exists name, macro, body, t.
  do 4 (split; auto). intro X. exact (fix_substituted rec macro node t u X H).
Qed.
Lemma near_ok : forall A f d (r : cres A) v w, nearly f d r v -> r = COk w -> w = v.
Proof. intros A f d r v w [->|[-> _]] H; [now injection H|discriminate]. Qed.
Lemma substituted_values : forall param (value value' : string -> term -> Prop), (forall r v, value r v -> value' r v) ->
  forall t u, substituted param value t u -> substituted param value' t u.
Proof.
  intros param value value' V.
  assert (LS : forall ts us, Forall (fun t => forall u, substituted param value t u -> substituted param value' t u) ts ->
    Forall2 (substituted param value) ts us -> Forall2 (substituted param value') ts us).
  { intros ts us F H. induction H; [constructor|]. inversion F; subst. constructor; auto. }
  induction t using term_ind'; intros u S; inversion S; subst; try (constructor; now auto); try (constructor; eapply LS; now eauto).
Qed.
Lemma substituted_unique : forall param (value : string -> term -> Prop) t u u', (forall r v v', value r v -> value r v' -> v = v') ->
  substituted param value t u -> substituted param value t u' -> u = u'.
Proof.
  intros param value t u u' V. revert t u u'.
  assert (LS : forall ts, Forall (fun t => forall u u', substituted param value t u -> substituted param value t u' -> u = u') ts ->
    forall us us', Forall2 (substituted param value) ts us -> Forall2 (substituted param value) ts us' -> us = us').
  { intros ts F. induction F as [|x ts H F IH]; intros us us' A B; inversion A; subst; inversion B; subst; [reflexivity|]. f_equal; auto. }
  induction t using term_ind'; intros u u' A B; inversion A; subst; inversion B; subst; try reflexivity; try contradiction; try (f_equal; now auto);
    try (f_equal; eapply LS; now eauto). eapply V; eauto.
Qed.
Lemma expansion_written : forall ms fuel node u, expand_macro ms (build_term ms fuel) node = COk u ->
  forall name macro body c args, string_of (one "name" node) = COk name -> lookup name ms = Some macro -> one "term" macro = Some body ->
  reads body c -> exposed (term_of c) = true -> Forall2 reads (all "term" node) args ->
  substituted (fun r => exists i, names_param (all "args" macro) r i)
              (fun r v => exists i a, names_param (all "args" macro) r i /\ nth_error args i = Some a /\ v = term_of a) (term_of c) u.
Proof.
  intros ms fuel node u H name macro body c args N M B R X A.
  destruct (expansion_substitutes _ _ _ _ H) as (name' & macro' & body' & t & N' & M' & B' & T & S). rewrite N in N'. injection N' as <-.
  rewrite M in M'. injection M' as <-. rewrite B in B'. injection B' as <-.
  assert (E : t = term_of c) by (eapply near_ok; [apply build_near; exact R|exact T]). subst t.
  eapply substituted_values; [|exact (S X)]. intros r v (i & a & P & J & V). cbn beta.
  clear - A P J V. assert (Q : exists c', nth_error args i = Some c' /\ reads a c').
  { clear P V. revert i J. induction A as [|x y l l' R A IH]; intros [|i] J; simpl in J; try discriminate.
    - injection J as ->. exists y. auto.
    - destruct (IH i J) as (c' & K & R'). exists c'. auto. }
  destruct Q as (c' & K & R). exists i, c'. split; auto. split; auto. eapply near_ok; [apply build_near; exact R|exact V].
Qed.
