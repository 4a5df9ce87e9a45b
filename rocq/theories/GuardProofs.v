(** Texts whose left recursion the check sees: without cycles they give well-founded grammars. *)
From Verif Require Import Base Scanner Syntax Engine Resolve Ast WbnfAst Walker StrLit Build CutPoints CutPointSpec CutPointProofs PegSpec FlowSpec WfSpec AstProofs AstSpec
  Recursion RecursionSpec RecursionProofs Validate FrontSpec RefsSpec RefsProofs TopProofs TextSpec TextProofs GuardSpec.

(** * A graph without cycles has ranks *)

Section Ranks.
  Variable d : graph.
  Definition nexts (x : string) : list string := match lookup x d with Some l => l | None => [] end.
  Fixpoint longest (n : nat) (x : string) : nat :=
    match n with O => 0 | S n => list_max (map (fun y => S (longest n y)) (nexts x)) end.

  Lemma edge_nexts : forall x y, edge d x y <-> In y (nexts x).
  Proof.
    intros x y. unfold edge, nexts. split; [intros (l & -> & I); auto|]. destruct (lookup x d); [eauto|intros []].
  Qed.
  Lemma longest_chain : forall x p y, chain d x p y -> forall n, length p <= n -> length p <= longest n x.
  Proof.
    induction 1 as [x y E|x y p z E C IH]; intros n L; (destruct n as [|n]; simpl in L; [lia|]); cbn [longest length]; apply edge_nexts in E.
    - etransitivity; [|apply list_max_in, (in_map (fun y => S (longest n y))); exact E]. lia.
    - etransitivity; [|apply list_max_in, (in_map (fun y => S (longest n y))); exact E]. specialize (IH n). lia.
  Qed.
  Lemma chain_longest : forall n x, longest n x = 0 \/ exists p y, chain d x p y /\ length p = longest n x.
  Proof.
    induction n as [|n IH]; intro x; [now left|]. cbn [longest].
    assert (M : forall l, list_max (map (fun y => S (longest n y)) l) = 0 \/ exists y, In y l /\ list_max (map (fun y => S (longest n y)) l) = S (longest n y)).
    { induction l as [|a l IHl]; [now left|]. right. cbn [map list_max fold_right]. change (fold_right Nat.max 0 (map (fun y => S (longest n y)) l)) with (list_max (map (fun y => S (longest n y)) l)).
      destruct IHl as [Z|(y & I & Z)]; rewrite Z; [exists a; split; [now left|lia]|].
      destruct (Nat.le_gt_cases (S (longest n y)) (S (longest n a))); [exists a; split; [now left|lia]|exists y; split; [now right|lia]]. }
    destruct (M (nexts x)) as [Z|(y & I & Z)]; [now left|right]. rewrite Z. apply edge_nexts in I.
    destruct (IH y) as [Z'|(p & z & C & L)].
    - exists [x], y. split; [now constructor|]. rewrite Z'. reflexivity.
    - exists (x :: p), z. split; [econstructor; eauto|]. simpl. lia.
  Qed.
  Lemma chain_split : forall y p1 x p2 z, chain d y (p1 ++ x :: p2) z -> p1 <> [] -> chain d y p1 x.
  Proof.
    intros y p1. revert y. induction p1 as [|a p1 IH]; intros y x p2 z C NE; [congruence|]. simpl in C.
    inversion C as [? ? Ed|? b ? ? Ed C1]; subst; [destruct p1; discriminate|].
    destruct p1 as [|c p1].
    - simpl in C1. constructor. inversion C1; subst; auto.
    - econstructor; eauto. eapply IH; eauto. discriminate.
  Qed.
  Lemma first_in : forall (x : string) p, In x p -> exists p1 p2, p = p1 ++ x :: p2 /\ ~ In x p1.
  Proof.
    intros x. induction p as [|a p IH]; intros I; [destruct I|]. destruct (string_dec a x) as [->|N].
    - exists [], p. auto.
    - destruct I as [I|I]; [congruence|]. destruct (IH I) as (p1 & p2 & -> & NI). exists (a :: p1), p2. split; auto. intros [J|J]; auto.
  Qed.
  Lemma chain_nodup : (forall p, ~ cycle d p) -> forall x p y, chain d x p y -> NoDup p /\ incl p (keys d).
  Proof.
    intros A x p y C. induction C as [x y Ed|x y p z Ed C [N I]].
    - split; [repeat constructor; auto|]. intros z [<-|[]]. destruct Ed as (l & L & _). apply lookup_In in L. unfold keys. apply in_map_iff. exists (x, l). auto.
    - split.
      + constructor; auto. intro J. destruct (first_in _ _ J) as (p1 & p2 & -> & NI). apply (A (x :: p1)). split.
        * constructor; auto. clear - N. induction p1; simpl in *; [constructor|]. inversion N; subst. constructor; auto. intro J. apply H1. apply in_or_app. auto.
        * exists x. destruct p1 as [|a p1]; [constructor; simpl in C; inversion C; subst; auto|]. econstructor; eauto. eapply chain_split; eauto. discriminate.
      + intros w [<-|J]; auto. destruct Ed as (l & L & _). apply lookup_In in L. unfold keys. apply in_map_iff. exists (x, l). auto.
  Qed.
  Lemma acyclic_descends : (forall p, ~ cycle d p) -> exists rank, descends d rank.
  Proof.
    intro A. exists (longest (length (keys d))). intros x l y L I. assert (Ed : edge d x y) by (exists l; auto).
    assert (K : forall p z, chain d x p z -> length p <= length (keys d)).
    { intros p z C. destruct (chain_nodup A _ _ _ C) as [N J]. apply NoDup_incl_length; auto. }
    destruct (chain_longest (length (keys d)) y) as [Z|(p & z & C & E)].
    - rewrite Z. assert (C : chain d x [x] y) by now constructor. pose proof (longest_chain _ _ _ C _ (K _ _ C)). simpl in *. lia.
    - rewrite <- E. assert (C1 : chain d x (x :: p) z) by (econstructor; eauto). pose proof (longest_chain _ _ _ C1 _ (K _ _ C1)). simpl in *. lia.
  Qed.
End Ranks.

(** * Terms *)

Section Terms.
  Variables (E : engine) (w : option term) (eating defined : list string) (m : ranking).
  Hypothesis eats_info : forall x, In x eating -> exists k, info [m] x = Some (k, true).
  Hypothesis def_info : forall x, In x defined -> exists k e, info [m] x = Some (k, e).
  Notation solid := (solid E w eating).
  Notation sound := (sound E w eating defined).
  Notation opens := (opens E w eating).
  Notation opens_all := (opens_all E w eating).
  Notation guarded := (guarded E w eating).
  Notation guarded_all := (guarded_all E w eating).
  Notation eats := (eats E [m] w).
  Notation safe := (safe E [m] w).
  Notation safe_all := (safe_all E [m] w).

  Lemma juxtaposed_eats : forall ts, Exists eats ts -> eats (juxtaposed ts).
  Proof.
    intros ts H. destruct ts as [|t [|u ts]]; simpl; [inversion H|inversion H as [? ? X|? ? X]; subst; auto; inversion X|].
    now constructor.
  Qed.
  Lemma juxtaposed_safe : forall b ts, safe_all b ts -> safe b (juxtaposed ts).
  Proof. intros b ts H. destruct ts as [|t [|u ts]]; simpl; [now constructor|inversion H; auto|now constructor]. Qed.
  Lemma named_eats : forall n t, eats t -> eats (named_term n t).
  Proof. intros n t H. unfold named_term. destruct (String.eqb n ""); auto. now constructor. Qed.
  Lemma named_safe : forall b n t, safe b t -> safe b (named_term n t).
  Proof. intros b n t H. unfold named_term. destruct (String.eqb n ""); auto. now constructor. Qed.

  Lemma solid_eats : forall c, solid c -> eats (term_of c).
  Proof.
    induction c using ctext_ind'; intro S; inversion S; subst; cbn [term_of].
    - destruct (eats_info x) as (k & I); auto. econstructor; eauto.
    - constructor. auto.
    - constructor. auto.
    - auto.
    - constructor. apply Forall_map. rewrite Forall_forall in *. auto.
    - apply juxtaposed_eats. apply Exists_exists in H1 as (c & I & Sc). apply Exists_exists. exists (term_of c). split; [now apply in_map|].
      rewrite Forall_forall in H. auto.
    - assert (B : eats (named_term n (term_of c))) by (apply named_eats; auto). match goal with F : Forall (fun q => match q with QRep _ _ _ => _ | QList _ _ _ _ _ => _ end) qs |- _ => revert F B end.
      generalize (named_term n (term_of c)). clear. intros t F B.
      induction F as [|q qs Q F IH]; [exact B|]. cbn [fold_right]. destruct q; [now constructor|now constructor].
  Qed.

  Definition quanted (q : quant ctext) (t : term) : term :=
    match q with QRep mn mx _ => TQuant t mn mx | QList ass sn sep l r => TDelim t (named_term sn (term_of sep)) ass l r end.
  Lemma leaf_term : forall n a q qs, term_of (CLeaf n a (q :: qs)) = quanted q (term_of (CLeaf n a qs)).
  Proof. intros. destruct q; reflexivity. Qed.

  Lemma delim_safe : forall b t sep a cs ce, (cs = true -> safe b sep) -> safe b t -> eats t -> safe None t -> safe None sep -> safe b (TDelim t sep a cs ce).
  Proof.
    intros b t sep a cs ce L T ET NT NS. constructor. unfold delim_seq. constructor.
    assert (CORE : safe b (TSeq [t; Any (TSeq [sep; t])])).
    { constructor. apply WfSpec.sa_eaten; auto. apply WfSpec.sa_cons; [|constructor]. constructor.
      - constructor. repeat (apply WfSpec.sa_cons; auto). constructor.
      - intros _. constructor. right. now left. }
    assert (EC : eats (TSeq [t; Any (TSeq [sep; t])])) by (constructor; now left).
    assert (TAIL : safe_all b ([TSeq [t; Any (TSeq [sep; t])]] ++ (if ce then [Opt sep] else []))).
    { destruct ce; simpl; [|apply WfSpec.sa_cons; auto; constructor]. apply WfSpec.sa_eaten; auto. apply WfSpec.sa_cons; [|constructor]. constructor; auto. discriminate. }
    destruct cs; simpl in *; auto. apply WfSpec.sa_cons; auto. constructor; auto. discriminate.
  Qed.

  Lemma sound_safe : forall c, sound c -> safe None (term_of c).
  Proof.
    induction c using ctext_ind'; intro S.
    - inversion S; subst. destruct (def_info x) as (k & e & I); auto. econstructor; eauto. exact Logic.I.
    - constructor. - constructor. - constructor. - constructor.
    - inversion S; subst. constructor. auto.
    - inversion S; subst. apply IHc; auto.
    - constructor. constructor.
    - inversion S; subst. constructor. apply Forall_map. rewrite Forall_forall in *. auto.
    - inversion S; subst. apply juxtaposed_safe. rewrite Forall_forall in *. clear S. induction cs as [|c cs IH]; [constructor|]. cbn [map]. apply WfSpec.sa_cons.
      + apply H; [now left|apply H1; now left]. + apply IH; intros x I; [apply H; now right|apply H1; now right].
    - inversion S.
    - assert (SA : sound c) by (clear - S; induction qs as [|q qs IH]; inversion S; subst; auto).
      revert S. induction qs as [|q qs IH]; intro S; [cbn [term_of fold_right]; apply named_safe; auto|]. rewrite leaf_term. inversion H as [|? ? H1 H2]; subst.
      inversion S as [| | | | | | | | | | | ? ? mn mx b' ? A B|? ? ass sn sep l r ? A B Z]; subst; cbn [quanted].
      + constructor; auto. intro Q. apply solid_eats. auto.
      + cbn [qsep] in H1. inversion H1; subst. apply delim_safe; auto using solid_eats.
        * intros _. apply named_safe. auto. * apply named_safe. auto.
  Qed.

  Lemma opens_safe : forall c, sound c -> opens c -> forall b, safe b (term_of c).
  Proof.
    induction c using ctext_ind'; intros S O b.
    - inversion O. - constructor. - constructor. - constructor. - constructor.
    - inversion S; inversion O; subst. constructor. auto.
    - inversion S; inversion O; subst. apply IHc; auto.
    - constructor. constructor.
    - inversion S; inversion O; subst. constructor. apply Forall_map. rewrite Forall_forall in *. auto.
    - inversion S as [| | | | | | | | |? SA| | |]; inversion O as [| | | | | | | |? OA|]; subst. apply juxtaposed_safe. clear S O.
      induction OA as [|c cs O Sc|c cs O OA IH]; simpl; [constructor| |]; inversion H as [|? ? H1 H2]; subst; inversion SA as [|? ? S1 S2]; subst.
      + apply WfSpec.sa_eaten; auto using solid_eats. clear - S2 def_info eats_info. induction S2; [constructor|]. cbn [map]. apply WfSpec.sa_cons; auto using sound_safe.
      + apply WfSpec.sa_cons; auto.
    - inversion S.
    - assert (SA : sound c) by (clear - S; induction qs as [|q qs IH]; inversion S; subst; auto).
      inversion O as [| | | | | | | | |? ? ? OA OQ]; subst. clear O.
      revert S OQ. induction qs as [|q qs IH]; intros S OQ; [cbn [term_of fold_right]; apply named_safe; auto|]. rewrite leaf_term. inversion H as [|? ? H1 H2]; subst.
      assert (OQ' : forall ass sn sep r, In (QList ass sn sep true r) qs -> opens sep) by (intros; eapply OQ; right; eauto).
      inversion S as [| | | | | | | | | | | ? ? mn mx b' ? A B|? ? ass sn sep l r ? A B Z]; subst; cbn [quanted].
      + constructor; auto. intro Q. apply solid_eats. auto.
      + cbn [qsep] in H1. inversion H1; subst. apply delim_safe; auto using solid_eats, sound_safe.
        * intros ->. apply named_safe. apply H4; auto. eapply OQ. left. reflexivity.
        * apply named_safe. apply sound_safe. auto.
  Qed.

  Lemma seq_first_in : forall ds r x, In x r -> In x (seq_first ds r).
  Proof.
    induction ds as [|d ds IH]; simpl; intros r x I; auto. destruct d; auto. apply IH. apply union_In. auto.
  Qed.

  Lemma honest_empty : forall c, honest E w eating c -> first_refs c = [] -> solid c.
  Proof.
    intros c [S|(n & a & qs & -> & Q & H)] F; auto. exfalso. cbn [first_refs] in F. rewrite Q in F.
    destruct H as [(x & ->)|[NE NG]]; [discriminate|]. destruct qs; [congruence|]. destruct a; try discriminate. eapply NG; eauto.
  Qed.

  Lemma quants_safe : forall n a qs b, sound (CLeaf n a qs) -> existsb qasks qs = false -> safe b (term_of a) -> safe b (term_of (CLeaf n a qs)).
  Proof.
    intros n a qs b S Q T. induction qs as [|q qs IH]; [cbn [term_of fold_right]; now apply named_safe|]. rewrite leaf_term. cbn [existsb] in Q.
    apply Bool.orb_false_iff in Q as [Q1 Q2].
    inversion S as [| | | | | | | | | | | ? ? mn mx b' ? A B|? ? ass sn sep l r ? A B Z]; subst; [|discriminate]. cbn [quanted]. constructor; auto.
    intro Z. apply solid_eats. auto.
  Qed.
  Lemma sound_atom : forall n a qs, sound (CLeaf n a qs) -> sound a.
  Proof. intros n a qs S. induction qs as [|q qs IH]; inversion S; subst; auto. Qed.
  Lemma sound_all : forall cs, Forall sound cs -> safe_all None (map term_of cs).
  Proof. induction 1; [constructor|]. cbn [map]. apply WfSpec.sa_cons; auto using sound_safe. Qed.
  Lemma union_all_In : forall ds r x, In x (fold_left union ds r) <-> In x r \/ exists d, In d ds /\ In x d.
  Proof.
    induction ds as [|d ds IH]; intros r x; simpl; [firstorder|]. rewrite IH, union_In. split.
    - intros [[H|H]|(e & H & H')]; eauto.
    - intros [H|(e & [<-|H] & H')]; eauto.
  Qed.

  Section GuardedSeq.
    Variable b : nat.
    Definition lower (l : list string) : Prop := forall x k e, In x l -> x <> ""%string -> info [m] x = Some (k, e) -> k < b.
    Lemma guarded_seq : forall cs, Forall (fun c => sound c -> guarded c -> lower (first_refs c) -> safe (Some b) (term_of c)) cs ->
      Forall sound cs -> guarded_all cs -> forall r, lower (seq_first (map first_refs cs) r) -> safe_all (Some b) (map term_of cs).
    Proof.
      induction 1 as [|c cs H F IH]; intros S G r L; [constructor|]. inversion S as [|? ? S1 S2]; subst. cbn [map].
      assert (LC : lower (first_refs c)).
      { intros x k e I NE. apply L; auto. cbn [map seq_first]. destruct (first_refs c) as [|y l]; [destruct I|].
        apply seq_first_in. apply union_In. right. apply without_In. auto. }
      inversion G as [|? Gc|? ? Gc Sc|? ? Gc Hc Gs]; subst; [apply WfSpec.sa_cons; [auto|constructor]|apply WfSpec.sa_eaten; auto using solid_eats, sound_all|].
      cbn [map seq_first] in L. destruct (first_refs c) eqn:Ec.
      - apply WfSpec.sa_eaten; auto using sound_all. apply solid_eats. now apply honest_empty.
      - apply WfSpec.sa_cons; auto. eapply IH; eauto.
    Qed.
  End GuardedSeq.

  Lemma guarded_safe : forall b c, sound c -> guarded c -> lower b (first_refs c) -> safe (Some b) (term_of c).
  Proof.
    intro b.
    set (P := fun c => sound c -> guarded c -> lower b (first_refs c) -> safe (Some b) (term_of c)).
    cut (forall c, P c /\ match c with CGroup c' => P c' | _ => True end); [intros H c; apply H|].
    assert (OP : forall c, (sound c -> guarded c -> opens c) -> P c) by (intros c H S G L; apply opens_safe; auto).
    induction c using ctext_ind';
      try (split; [apply OP; intros _ G; inversion G; auto; fail|exact Logic.I || exact (proj1 IHc)]); (split; [|exact Logic.I]).
    - intros S G L. inversion G as [? O|? G1|? G1|? x' ? NE Q|? c' ? Q G1]; subst; [apply opens_safe; auto|].
      inversion S; subst. cbn [term_of]. constructor. apply Forall_map. apply Forall_forall. intros c I. rewrite Forall_forall in *.
      apply H; auto. intros x k e J. apply L. cbn [first_refs]. apply union_all_In. right. exists (first_refs c). split; auto. now apply in_map.
    - intros S G L. inversion G as [? O|? G1|? G1|? x' ? NE Q|? c' ? Q G1]; subst; [apply opens_safe; auto|].
      inversion S; subst. cbn [term_of]. apply juxtaposed_safe. eapply guarded_seq; eauto. rewrite Forall_forall in *. intros c I. apply H. auto.
    - intros S G L. inversion G as [? O|? G1|? G1|? x' ? NE Q|? c' ? Q G1]; subst; [apply opens_safe; auto|..].
      + apply quants_safe; auto. cbn [term_of]. assert (D := sound_atom _ _ _ S). inversion D; subst. destruct (def_info x') as (k & e & I); auto.
        econstructor; eauto. simpl. eapply (L x'); eauto. cbn [first_refs]. rewrite Q. now left.
      + apply quants_safe; auto. cbn [term_of]. assert (D := sound_atom _ _ _ S). inversion D; subst. apply IHc; auto.
        intros x k e I. apply L. cbn [first_refs]. rewrite Q. apply union_In. auto.
  Qed.
End Terms.

(** * Cut points *)

Section Marks.
  Variables (E : engine) (R : list ranking) (w : option term) (U : bytes -> Prop).
  Definition good (t t' : term) : Prop := (eats E R w t -> eats E R w t') /\ forall b, safe E R w b t -> safe E R w b t'.
  Lemma good_refl : forall t, good t t.
  Proof. split; auto. Qed.
  Lemma good_all : forall ts ts', Forall2 good ts ts' -> forall b, safe_all E R w b ts -> safe_all E R w b ts'.
  Proof.
    induction 1 as [|t t' ts ts' [Q1 Q2] F IH]; intros b S; [constructor|].
    inversion S; subst; [apply WfSpec.sa_eaten|apply WfSpec.sa_cons]; auto.
  Qed.
  Lemma good_seq : forall ts ts', Forall2 good ts ts' -> good (TSeq ts) (TSeq ts').
  Proof.
    intros ts ts' F. split.
    - intro H. inversion H as [| | |? ? ? X| | | | | |]; subst. constructor. revert X. clear H. induction F as [|t t' ts ts' [Q1 Q2] F IH]; intro X; inversion X; subst; auto.
    - intros b H. inversion H; subst. constructor. eapply good_all; eauto.
  Qed.
  Lemma good_oneof : forall ts ts', Forall2 good ts ts' -> good (TOneof ts) (TOneof ts').
  Proof.
    intros ts ts' F. split.
    - intro H. inversion H as [| | | |? ? ? X| | | | |]; subst. constructor. revert X. clear H. induction F as [|t t' ts ts' [Q1 Q2] F IH]; intro X; inversion X; subst; auto.
    - intros b H. inversion H as [| | | | | |? ? ? ? X| | | | | |]; subst. constructor. revert X. clear H. induction F as [|t t' ts ts' [Q1 Q2] F IH]; intro X; inversion X; subst; auto.
  Qed.
  Lemma good_quant : forall t t' mn mx, good t t' -> good (TQuant t mn mx) (TQuant t' mn mx).
  Proof. intros t t' mn mx [Q1 Q2]. split; [intro H|intros b H]; inversion H; subst; constructor; auto. Qed.
  Lemma good_named : forall n t t', good t t' -> good (TNamed n t) (TNamed n t').
  Proof. intros n t t' [Q1 Q2]. split; [intro H|intros b H]; inversion H; subst; constructor; auto. Qed.
  Lemma good_cut : forall t t', good t t' -> good (TCut t) (TCut t').
  Proof. intros t t' [Q1 Q2]. split; [intro H|intros b H]; inversion H; subst; constructor; auto. Qed.
  Lemma good_delim : forall t t' sep sep' a cs ce, good t t' -> good sep sep' -> good (TDelim t sep a cs ce) (TDelim t' sep' a cs ce).
  Proof.
    intros t t' sep sep' a cs ce Q Q'. split.
    - intro H. inversion H; subst. constructor. now apply Q.
    - assert (D : good (delim_seq t sep cs ce) (delim_seq t' sep' cs ce)).
      + unfold delim_seq, Opt, Any. apply good_seq. apply Forall2_app; [destruct cs; [constructor; [now apply good_quant|constructor]|constructor]|].
        apply Forall2_app; [|destruct ce; [constructor; [now apply good_quant|constructor]|constructor]].
        constructor; [|constructor]. apply good_seq. repeat (apply Forall2_cons; auto). apply good_quant. apply good_seq. repeat (apply Forall2_cons; auto).
      + intros b H. inversion H; subst. constructor. now apply D.
  Qed.
  Lemma marked_good : forall t t', marked U t t' -> no_stack t = true -> no_scoped t = true -> good t t'.
  Proof.
    fix IH 3. intros t t' M NK NS. destruct M; try apply good_refl; cbn [no_scoped no_stack] in *.
    - split; [intro H'|intros b H']; now constructor.
    - apply good_seq. induction H as [|a b l m Q F IHl]; constructor; cbn [forallb] in *; apply andb_true_iff in NS as [N1 N2]; apply andb_true_iff in NK as [K1 K2]; auto.
    - apply good_oneof. induction H as [|a b l m Q F IHl]; constructor; cbn [forallb] in *; apply andb_true_iff in NS as [N1 N2]; apply andb_true_iff in NK as [K1 K2]; auto.
    - discriminate.
    - apply andb_true_iff in NS as [N1 N2]; apply andb_true_iff in NK as [K1 K2]. apply good_delim; auto.
    - apply good_quant; auto.
    - apply good_named; auto.
    - discriminate.
    - apply good_cut; auto.
  Qed.
End Marks.

(** * Grammars *)

Lemma named_flat : forall (f : term -> bool) n t, (forall n t, f (TNamed n t) = f t) -> f (named_term n t) = f t.
Proof. intros f n t H. unfold named_term. destruct (String.eqb n ""); auto. Qed.
Lemma term_flat : forall E w eating defined c, sound E w eating defined c -> no_stack (term_of c) = true /\ no_scoped (term_of c) = true.
Proof.
  intros E w eating defined.
  assert (J : forall cs, Forall (fun c => no_stack (term_of c) = true /\ no_scoped (term_of c) = true) cs ->
    forallb no_stack (map term_of cs) = true /\ forallb no_scoped (map term_of cs) = true).
  { induction 1 as [|c cs [A B] F [C D]]; cbn [map forallb]; auto. now rewrite A, B, C, D. }
  induction c using ctext_ind'; intro S; cbn [term_of no_stack no_scoped]; auto.
  - inversion S; auto. - inversion S; auto.
  - apply J. inversion S; subst. rewrite Forall_forall in *. auto.
  - assert (F : forallb no_stack (map term_of cs) = true /\ forallb no_scoped (map term_of cs) = true).
    { apply J. inversion S; subst. rewrite Forall_forall in *. auto. }
    destruct F as [A B]. destruct (map term_of cs) as [|t [|u ts]]; cbn [juxtaposed no_stack no_scoped]; auto.
    cbn [forallb] in *. now rewrite Bool.andb_true_r in *.
  - inversion S.
  - assert (SA := sound_atom _ _ _ _ _ _ _ S). specialize (IHc SA).
    change (no_stack (term_of (CLeaf n c qs)) = true /\ no_scoped (term_of (CLeaf n c qs)) = true).
    induction qs as [|q qs IHq].
    + cbn [term_of fold_right]. rewrite !named_flat; auto.
    + inversion H; subst. rewrite leaf_term. inversion S; subst; cbn [quanted no_stack no_scoped qsep] in *.
      * apply IHq; auto.
      * destruct IHq as [A B]; auto. rewrite A, B, !named_flat; auto.
        match goal with F : Forall _ [sep] |- _ => inversion F as [|? ? X]; subst end. now rewrite (proj1 (X ltac:(auto))), (proj2 (X ltac:(auto))).
Qed.

Lemma jux_flat : forall f ts, (forall ts, f (TSeq ts) = forallb f ts) -> forallb f ts = true -> f (juxtaposed ts) = true.
Proof. intros f ts H F. destruct ts as [|t [|u ts]]; cbn [juxtaposed]; [rewrite H; auto| |rewrite H; auto]. cbn [forallb] in F. now rewrite Bool.andb_true_r in F. Qed.
Lemma prod_flat : forall E w eating defined cs, Forall (sound E w eating defined) cs ->
  no_stack (juxtaposed (map term_of cs)) = true /\ no_scoped (juxtaposed (map term_of cs)) = true.
Proof.
  intros E w eating defined cs F. split; apply jux_flat; auto; apply forallb_forall; intros t I; apply in_map_iff in I as (c & <- & J);
    rewrite Forall_forall in F; eapply term_flat; eauto.
Qed.

Section Text.
  Variables (E : engine) (eating : list string) (prods : list (string * list ctext)).
  Let g := insert_cut_points (grammar_text prods).
  Hypothesis distinct : NoDup (keys prods).
  Hypothesis G : guarded_text E (lookup WrapRE g) eating prods.
  Let G_sound := gt_sound _ _ _ _ G.
  Let G_guarded := gt_guarded _ _ _ _ G.
  Let G_eating := gt_eating _ _ _ _ G.

  Lemma text_rules : forall x t, lookup x g = Some t -> exists cs, In (x, cs) prods /\ marked (fun x => times_in x (written_grammar (grammar_text prods)) = 1) (juxtaposed (map term_of cs)) t.
  Proof.
    intros x t L. apply lookup_In in L. pose proof (insert_marked (grammar_text prods)) as M. fold g in M. unfold marked_grammar in M.
    destruct (Forall2_In_r _ _ _ _ _ _ M L) as ([k u] & I & [K Q]). cbn [fst snd] in *. subst k.
    unfold grammar_text in I. apply in_map_iff in I as ([y cs] & Q' & I). injection Q' as <- <-. eauto.
  Qed.
  Lemma text_no_stack : no_stack_grammar g = true.
  Proof.
    unfold no_stack_grammar. apply forallb_forall. intros [x t] I. cbn [snd].
    pose proof (insert_marked (grammar_text prods)) as M. fold g in M. unfold marked_grammar in M.
    destruct (Forall2_In_r _ _ _ _ _ _ M I) as ([k u] & J & [K Q]). cbn [fst snd] in *. subst k.
    unfold grammar_text in J. apply in_map_iff in J as ([y cs] & Q' & J). injection Q' as <- <-. cbn [fst snd] in *.
    destruct (marked_keeps _ true _ _ Q) as (A & _). apply A. eapply prod_flat; eauto.
  Qed.
  Lemma text_keys : keys g = keys prods.
  Proof. unfold g. rewrite insert_keys. unfold grammar_text, keys. rewrite map_map. reflexivity. Qed.

  Theorem guarded_well_founded : forall rank, descends (text_graph prods) rank -> well_founded_grammar E g.
  Proof.
    intros rank D.
    set (m := map (fun xcs : string * list ctext => (fst xcs, (rank (fst xcs), existsb (String.eqb (fst xcs)) eating))) prods : ranking).
    assert (MI : forall x v, info [m] x = Some v -> In x (keys prods) /\ v = (rank x, existsb (String.eqb x) eating)).
    { intros x v I. cbn [info] in I. destruct (lookup x m) as [u|] eqn:L; [|discriminate]. injection I as <-. apply lookup_In in L.
      unfold m in L. apply in_map_iff in L as ([y cs] & Q & J). injection Q as <- <-. split; auto. unfold keys. apply in_map_iff. exists (y, cs). auto. }
    assert (ML : forall x, In x (keys prods) -> lookup x m = Some (rank x, existsb (String.eqb x) eating)).
    { intros x I. destruct (lookup x m) as [u|] eqn:L; [|exfalso].
      - destruct (MI x u) as [_ ->]; auto. cbn [info]. now rewrite L.
      - apply lookup_None in L. apply L. unfold m, keys. rewrite map_map. exact I. }
    assert (MK : forall x, In x (keys prods) -> info [m] x = Some (rank x, existsb (String.eqb x) eating)).
    { intros x I. cbn [info]. now rewrite ML. }
    assert (KI : forall x cs, In (x, cs) prods -> In x (keys prods)) by (intros x cs I; unfold keys; apply in_map_iff; exists (x, cs); auto).
    assert (H1 : forall x, In x eating -> exists k, info [m] x = Some (k, true)).
    { intros x I. destruct (G_eating x I) as (cs & J & _). exists (rank x). rewrite MK by eauto. do 2 f_equal. apply existsb_exists. exists x. split; auto. apply String.eqb_refl. }
    assert (H2 : forall x, In x (keys prods) -> exists k e, info [m] x = Some (k, e)) by (intros x I; rewrite MK; eauto).
    exists m. constructor.
    - intro r. rewrite !lookup_None, text_keys. unfold m, keys. rewrite map_map. reflexivity.
    - intros r t k e L I. destruct (text_rules r t L) as (cs & J & M).
      assert (V : (k, e) = (rank r, existsb (String.eqb r) eating)) by (rewrite ML in I by eauto; congruence). injection V as -> ->.
      destruct (prod_flat _ _ _ _ _ (G_sound _ _ J)) as [A B]. apply (marked_good E [m] (lookup WrapRE g) _ _ _ M A B).
      apply juxtaposed_safe.
      assert (LO : forall c, In c cs -> lower m (rank r) (first_refs c)).
      { intros c Ic x k e' Ix NE Q. destruct (MI _ _ Q) as [_ V]. injection V as -> ->.
        assert (LK : lookup r (text_graph prods) = Some (fold_left union (map first_refs cs) [])).
        { apply In_lookup; [|unfold text_graph; apply in_map_iff; exists (r, cs); auto]. unfold text_graph, keys. rewrite map_map. exact distinct. }
        apply (D _ _ x LK). apply (proj2 (union_all_In E _ _ _)). right. exists (first_refs c). split; auto. now apply in_map. }
      pose proof (G_sound _ _ J) as FS. pose proof (G_guarded _ _ J) as FG. clear - LO FS FG H1 H2.
      induction cs as [|c cs IH]; [constructor|]. inversion FS; inversion FG; subst. cbn [map]. apply WfSpec.sa_cons.
      + eapply (guarded_safe E (lookup WrapRE g) eating (keys prods) m H1 H2); auto. apply LO. now left.
      + apply IH; auto. intros c' I. apply LO. now right.
    - intros r t k L I. destruct (text_rules r t L) as (cs & J & M).
      assert (V : (k, true) = (rank r, existsb (String.eqb r) eating)) by (rewrite ML in I by eauto; congruence). injection V as -> V.
      symmetry in V. apply existsb_exists in V as (y & Iy & Q). apply String.eqb_eq in Q as <-.
      destruct (G_eating r Iy) as (cs' & J' & X).
      assert (cs' = cs) by (pose proof (In_lookup _ _ _ distinct J); pose proof (In_lookup _ _ _ distinct J'); congruence). subst cs'.
      destruct (prod_flat _ _ _ _ _ (G_sound _ _ J)) as [A B]. apply (marked_good E [m] (lookup WrapRE g) _ _ _ M A B).
      apply juxtaposed_eats. apply Exists_exists in X as (c & Ic & Sc). apply Exists_exists. exists (term_of c). split; [now apply in_map|].
      eapply solid_eats; eauto.
  Qed.
End Text.

(** * From the AST *)

Lemma built_text : forall fuel n prods g, reads_grammar n prods -> NoDup (keys prods) -> new_from_ast fuel n = COk g ->
  g = insert_cut_points (grammar_text prods).
Proof.
  intros fuel n prods g R N B. unfold new_from_ast in B. apply cbind_inv in B as (ms & _ & B). apply cbind_inv in B as (g0 & B & H). injection H as <-.
  now rewrite (grammar_of_text _ _ _ _ R N _ B).
Qed.
Lemma accepted_names : forall E rt fuel n prods fuel' g, plain_tree n -> reads_grammar n prods -> validate E rt fuel n = COk [] ->
  new_from_ast fuel' n = COk g -> NoDup (keys prods) /\ keys g = keys prods.
Proof.
  intros E rt fuel n prods fuel' g P R V B. destruct (accepted_definitions _ _ _ _ _ _ P V B) as [N F].
  assert (Q : keys g = keys prods); [|split; auto; now rewrite <- Q].
  unfold reads_grammar in R. unfold productions in F. revert R F. generalize (flat_map (fun s => match one "prod" s with Some p => [p] | None => [] end) (all "stmt" n)).
  intros ps R. generalize (keys g). induction R as [|p [x cs] ps prods' [X C] R IH]; intros ks F; inversion F as [|? k ? ks' K F']; subst; auto.
  cbn [fst] in X. unfold keys in *. cbn [map fst]. f_equal; [congruence|auto].
Qed.
Theorem guarded_acyclic : forall E fuel n prods d eating fuel' g, plain_tree n -> reads_grammar n prods -> NoDup (keys prods) ->
  collect_dangers fuel n = COk d -> (forall p, ~ cycle d p) -> new_from_ast fuel' n = COk g ->
  guarded_text E (lookup WrapRE g) eating prods -> no_stack_grammar g = true /\ well_founded_grammar E g.
Proof.
  intros E fuel n prods d eating fuel' g P R N D A B G. rewrite (graph_of_text _ _ _ _ P R N D) in A. rewrite (built_text _ _ _ _ R N B) in *.
  destruct (acyclic_descends _ A) as [rank DS]. split; [eapply text_no_stack; eauto|]. eapply guarded_well_founded; eauto.
Qed.
Lemma accepted_graph : forall E rt fuel n, validate E rt fuel n = COk [] ->
  exists d, collect_dangers fuel n = COk d /\ check_for_recursion rt fuel n = COk false.
Proof.
  intros E rt fuel n V. unfold validate in V. apply cbind_inv in V as (d0 & _ & V). destruct (d_dupes d0); [|discriminate].
  apply cbind_inv in V as (v & _ & V). apply cbind_inv in V as (b & K & V). injection V as V. destruct b; [destruct (v_err v); discriminate|].
  assert (K' := K). unfold check_for_recursion in K'. apply cbind_inv in K' as (d & D & _). eauto.
Qed.
