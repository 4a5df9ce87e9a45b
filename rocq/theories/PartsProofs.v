(** The AST of a tree holds its parts. *)
From Verif Require Import Base Scanner Syntax Engine PegSpec DerivSpec Resolve Compile Parse FlowSpec CutSpec ApiSpec CompileProofs ReorderProofs DerivProofs FlowProofs ApiProofs
  Ast AstSpec AstProofs AstNodeProofs AstParse AstCount AstConvert AstFits PartsSpec.
Local Open Scope string_scope.
Local Open Scope list_scope.

Lemma named_app : forall k a b, named k (a ++ b) = named k a ++ named k b.
Proof. intros k a b. unfold named. now rewrite filter_app, map_app. Qed.
Lemma named_one : forall k m n, named k [(m, n)] = if String.eqb m k then [n] else [].
Proof. intros k m n. unfold named. simpl. now destruct (String.eqb m k). Qed.

(** [b'] has the parts [l] on top of those of [b]. *)
Definition grew (b : branch) (l : list (string * anode)) (b' : branch) : Prop :=
  forall l0, made_of l0 b -> made_of (l0 ++ l) b'.
Lemma grew_nil : forall b, grew b [] b.
Proof. intros b l0 M. now rewrite app_nil_r. Qed.
Lemma grew_app : forall b l b' l' b2, grew b l b' -> grew b' l' b2 -> grew b (l ++ l') b2.
Proof. intros b l b' l' b2 A B l0 M. rewrite app_assoc. auto. Qed.
Lemma made_nil : made_of [] [].
Proof. split; [constructor|]. intros k. reflexivity. Qed.
Lemma grew_made : forall l b, grew [] l b -> made_of l b.
Proof. intros l b G. exact (G [] made_nil). Qed.

Lemma one_grew : forall name n b b', badd_one name n b = COk b' -> grew b [(name, n)] b'.
Proof.
  intros name n b b' E l0 [ND M]. unfold badd_one in E. destruct (lookup name b) eqn:L; [discriminate|]. inversion E; subst. clear E.
  split; [now apply NoDup_aset|]. intros k.
  rewrite named_app, named_one. destruct (String.eqb_spec name k) as [<-|N].
  - rewrite lookup_aset_eq. specialize (M name). rewrite L in M. now rewrite M.
  - rewrite lookup_aset_neq by auto. rewrite app_nil_r. apply M.
Qed.
Lemma many_grew : forall name n b b', badd_many name n b = COk b' -> grew b [(name, n)] b'.
Proof.
  intros name n b b' E l0 [ND M]. unfold badd_many in E.
  assert (X : exists ns, b' = aset name (Many (ns ++ [n])) b /\ named name l0 = ns).
  { specialize (M name). destruct (lookup name b) as [[y|ys]|]; inversion E; subst; clear E; [exists ys|exists []]; auto. split; auto. apply M. }
  destruct X as (ns & -> & X). split; [now apply NoDup_aset|]. intros k. rewrite named_app, named_one. destruct (String.eqb_spec name k) as [<-|N].
  - rewrite lookup_aset_eq, X. split; auto. now destruct ns.
  - rewrite lookup_aset_neq by auto. rewrite app_nil_r. apply M.
Qed.
Lemma add_grew : forall name n c b b', badd name n c b = COk b' -> grew b [(name, n)] b'.
Proof.
  intros name n [[|[|lo]] [|[|hi]]] b b' E; simpl in E; try discriminate; try (now apply one_grew); now apply many_grew.
Qed.

(** Back references. *)
Lemma ref_parts : forall i d v, repeating v -> forall f ctrs b g b' g', from_node f (Some (TREF i d)) ctrs v (b, g) = COk (b', g') ->
  exists n, echo i v n /\ grew b [(i, n)] b' /\ g' = g.
Proof.
  intros i d. induction v as [tag x cs IH|s|] using tree_ind'; intros R f ctrs b g b' g' E; (destruct f as [|f]; [discriminate|]); cbn [from_node] in E.
  - inversion R as [|? ? ? RC]; subst. apply cbind_inv in E as ([b2 g2] & E1 & E2). apply cbind_inv in E2 as (b3 & E2 & E3). inversion E3; subst.
    assert (X : forall cs, Forall (fun v => repeating v -> forall f ctrs b g b' g', from_node f (Some (TREF i d)) ctrs v (b, g) = COk (b', g') ->
                exists n, echo i v n /\ grew b [(i, n)] b' /\ g' = g) cs -> Forall repeating cs -> forall j b g b' g',
              each (fun _ c st => from_node f (Some (TREF i d)) ctrs c st) j cs (b, g) = COk (b', g') ->
              exists ns, echo_all i cs ns /\ grew b (map (pair i) ns) b' /\ g' = g).
    { clear. induction 1 as [|c cs H F IHF]; intros R j b g b' g' E.
      - inversion E; subst. exists []. split; [constructor|]. split; [apply grew_nil|auto].
      - inversion R; subst. cbn [each] in E. apply cbind_inv in E as ([b1 g1] & E1 & E2).
        apply H in E1 as (n & En & G1 & ->); auto. apply IHF in E2 as (ns & Es & G2 & ->); auto.
        exists (n :: ns). split; [now constructor|]. split; auto. exact (grew_app _ _ _ _ _ G1 G2). }
    apply X in E1 as (ns & Es & G & ->); auto. eexists. split; [econstructor; eauto using grew_made|]. split; auto. eapply add_grew; eauto.
  - apply cbind_inv in E as (b2 & E1 & E2). inversion E2; subst. eexists. split; [constructor|]. split; auto. eapply add_grew; eauto.
  - inversion R.
Qed.

Section Parts.
  Variable U : string -> option term.
  Notation grows := (grows U).
  Notation inside := (inside U).
  Notation env_fine := (env_fine U).

  Definition yields (run : branch * grammar -> cres (branch * grammar)) (gs : grammars) (P : list (string * anode) -> Prop) : Prop :=
    forall b g b' g', holds g gs -> run (b, g) = COk (b', g') -> exists l, P l /\ grew b l b' /\ grows g g'.
  Lemma yields_next : forall (run1 run2 : branch * grammar -> cres (branch * grammar)) gs (P Q R : list (string * anode) -> Prop), env_fine gs ->
    yields run1 gs P -> yields run2 gs Q -> (forall l l', P l -> Q l' -> R (l ++ l')%list) -> yields (fun st => cbind (run1 st) run2) gs R.
  Proof.
    intros run1 run2 gs P Q R EF Y1 Y2 H b g b' g' HO E. apply cbind_inv in E as ([b1 g1] & E1 & E2).
    destruct (Y1 _ _ _ _ HO E1) as (l & L & G1 & S1). destruct (Y2 _ _ _ _ (grows_holds U _ _ _ S1 EF HO) E2) as (l' & L' & G2 & S2).
    exists (l ++ l')%list. split; auto. split; [eapply grew_app; eauto|eapply grows_trans; eauto].
  Qed.

  Theorem fits_parts :
    (forall gs t v ks, fits gs t v ks -> smooth t -> inside (inner_rules t) -> env_fine gs -> forall f ctrs,
       yields (from_node f (Some t) ctrs v) gs (level gs t v)) /\
    (forall gs ts cs ks, fits_all gs ts cs ks -> Forall smooth ts -> inside (flat_map inner_rules ts) -> env_fine gs -> forall f pre ctrs,
       yields (each (fun i c st => match nth_error (pre ++ ts) i with
                                   | Some t => from_node f (Some t) ctrs c st
                                   | None => CPanic
                                   end) (length pre) cs) gs (level_all gs ts cs)) /\
    (forall gs t cs ks, fits_many gs t cs ks -> smooth t -> inside (inner_rules t) -> env_fine gs -> forall f ctrs i,
       yields (each (fun _ c st => from_node f (Some t) ctrs c st) i cs) gs (level_many gs t cs)) /\
    (forall gs t sep cs ks, fits_turns gs t sep cs ks -> smooth t -> smooth sep -> inside (inner_rules t) ->
       inside (inner_rules sep) -> env_fine gs -> forall f ctrs i a0 cs0 ce0 tag T S, is_delim S = false ->
       (if Nat.odd i then t = S /\ sep = T else t = T /\ sep = S) ->
       yields (each (list_step f T S (TDelim T S a0 cs0 ce0) tag ctrs) i cs) gs (level_turns (Nat.eqb i 0) gs t sep cs)).
  Proof.
    apply fits_mutind.
    - intros gs x s _ _ _ [|f] ctrs b g b' g' HO E; [discriminate|]. cbn [from_node] in E. apply cbind_inv in E as (b1 & E & X). inversion X; subst.
      eexists. split; [constructor|]. split; [eapply add_grew; eauto|apply grows_refl].
    - intros gs x s _ _ _ [|f] ctrs b g b' g' HO E; [discriminate|]. cbn [from_node] in E. apply cbind_inv in E as (b1 & E & X). inversion X; subst.
      eexists. split; [constructor|]. split; [eapply add_grew; eauto|apply grows_refl].
    - (* named *)
      intros gs n t v ks F IH S I EF [|f] ctrs b g b' g' HO E; [discriminate|]. inversion S as [| | | |? ? ON UM ST| | | | | | |]; subst.
      cbn [from_node] in E. apply cbind_inv in E as (cc & _ & E). apply cbind_inv in E as ([b2 g2] & E1 & E). apply cbind_inv in E as (b3 & E2 & E3).
      inversion E3; subst. destruct (IH ST I EF _ _ _ _ _ _ HO E1) as (l & L & G & GR).
      eexists. split; [econstructor; eauto using grew_made|]. split; auto. eapply add_grew; eauto.
    - (* rule *)
      intros gs r gs' t v ks D F IH S I EF [|f] ctrs b g b' g' HO E; [discriminate|]. inversion S as [| |? W OL| | | | | | | | |]; subst.
      destruct (defines_in U _ _ _ _ D EF) as (EF' & ST & UM & IT & UR). pose proof (defines_tail U _ _ _ _ D g HO EF) as HO'.
      cbn [from_node] in E. rewrite (HO _ _ _ D W) in E. apply cbind_inv in E as (cc & _ & E). apply cbind_inv in E as ([ul z] & EU & E).
      apply cbind_inv in E as ([b2 g2] & E1 & E). apply cbind_inv in E as (b3 & E2 & E3). inversion E3; subst.
      destruct (unlevel_stem r g OL) as (z' & EU'). rewrite EU' in EU. inversion EU; subst. cbn [fst] in E2.
      destruct (IH ST IT EF' _ _ _ _ _ _ HO' E1) as (l & L & G & GR).
      eexists. split; [econstructor; eauto using grew_made|]. split; auto. eapply add_grew; eauto.
    - (* back reference *)
      intros gs i d v RP S I EF f ctrs b g b' g' HO E. destruct (ref_parts _ _ _ RP _ _ _ _ _ _ E) as (n & En & G & ->).
      eexists. split; [constructor; eauto|]. split; auto. apply grows_refl.
    - intros gs t v ks F IH S I EF [|f] ctrs b g b' g' HO E; [discriminate|]. inversion S; subst. cbn [from_node] in E.
      destruct (IH ltac:(auto) I EF _ _ _ _ _ _ HO E) as (l & L & G). exists l. split; auto. now constructor.
    - (* scoped *)
      intros gs t g0 v ks F IH S I EF [|f] ctrs b g b' g' HO E; [discriminate|]. inversion S as [| | | | | | | | | | |? ? ST SG]; subst. cbn [inner_rules] in I.
      apply inside_app in I as [I1 I2]. apply inside_app in I2 as [I2 I3]. cbn [from_node] in E.
      assert (EF' : env_fine (g0 :: gs)).
      { constructor; auto. split; auto. intros k x J NW. apply in_app_or in J as [J|J]; [apply I2|apply I3]; auto. }
      destruct (IH ST I1 EF' _ _ _ _ _ _ (merge_holds U _ _ _ I2 HO) E) as (l & L & G & GR). exists l. split; [now constructor|]. split; auto.
      exact (grows_trans _ _ _ _ (merge_grows U _ g I2) GR).
    - intros gs ts tag cs ks F IH S I EF [|f] ctrs b g b' g' HO E; [discriminate|]. inversion S; subst. cbn [from_node] in E.
      destruct (IH ltac:(auto) I EF f [] ctrs _ _ _ _ HO E) as (l & L & G). exists l. split; auto. now constructor.
    - (* choice *)
      intros gs ts tag i t v ks NE F IH S I EF [|f] ctrs b g b' g' HO E; [discriminate|]. inversion S as [| | | | | |? FS| | | | |]; subst.
      pose proof (nth_error_In _ _ NE) as J. rewrite Forall_forall in FS. cbn [from_node] in E. apply cbind_inv in E as (b1 & E1 & E). rewrite NE in E.
      assert (IT : inside (inner_rules t)) by (eapply inside_flat; eauto).
      destruct (IH (FS _ J) IT EF _ _ _ _ _ _ HO E) as (l & L & G & GR). eexists. split; [econstructor; eauto|]. split; auto.
      exact (grew_app _ _ _ _ _ (many_grew _ _ _ _ E1) G).
    - intros gs t mn mx tag cs ks F IH L1 L2 S I EF [|f] ctrs b g b' g' HO E; [discriminate|]. inversion S; subst. cbn [from_node] in E.
      destruct (IH ltac:(auto) I EF _ _ _ _ _ _ _ HO E) as (l & L & G). exists l. split; auto. now constructor.
    - intros gs t tag v ks F IH S I EF [|f] ctrs b g b' g' HO E; [discriminate|]. inversion S; subst. cbn [from_node each] in E.
      apply cbind_inv in E as ([b1 g1] & E & X). inversion X; subst.
      destruct (IH ltac:(auto) I EF _ _ _ _ _ _ HO E) as (l & L & G). exists l. split; auto. now constructor.
    - (* list *)
      intros gs t sep a cs ce tag items ks F IH S I EF [|f] ctrs b g b' g' HO E; [discriminate|]. inversion S as [| | | | | | |? ? ? ? S1 S2 ND| | | |]; subst.
      cbn [inner_rules] in I. apply inside_app in I as [I1 I2]. cbn [from_node] in E.
      destruct (IH S1 S2 I1 I2 EF f ctrs 0 NonAssociative cs ce tag t sep ND ltac:(simpl; auto) _ _ _ _ HO E) as (l & L & G).
      exists l. split; auto. now constructor.
    - intros gs _ _ _ f pre ctrs b g b' g' HO E. inversion E; subst. exists []. split; [constructor|]. split; [apply grew_nil|apply grows_refl].
    - intros gs t ts v cs k ks F IH FA IHA S I EF f pre ctrs. inversion S as [|? ? S1 S2]; subst. cbn [flat_map] in I. apply inside_app in I as [I1 I2].
      cbn [each]. replace (nth_error (pre ++ t :: ts) (length pre)) with (Some t) by (rewrite nth_error_app2, Nat.sub_diag by lia; reflexivity).
      eapply yields_next; [auto|exact (IH S1 I1 EF f ctrs)| |].
      + specialize (IHA S2 I2 EF f (pre ++ [t])%list ctrs). rewrite <- app_assoc, app_length in IHA. simpl in IHA.
        rewrite Nat.add_1_r in IHA. exact IHA.
      + intros l l'. now constructor.
    - intros gs t _ _ _ f ctrs i b g b' g' HO E. inversion E; subst. exists []. split; [constructor|]. split; [apply grew_nil|apply grows_refl].
    - intros gs t v cs k ks F IH FA IHA S I EF f ctrs i. cbn [each].
      eapply yields_next; [auto|exact (IH S I EF f ctrs)|exact (IHA S I EF f ctrs _)|]. intros l l'. now constructor.
    - intros gs t sep _ _ _ _ _ f ctrs i a0 cs0 ce0 tag T0 S0 _ _ b g b' g' HO E. inversion E; subst. exists []. split; [constructor|]. split; [apply grew_nil|apply grows_refl].
    - intros gs t sep cs ks F IH S1 S2 I1 I2 EF f ctrs i a0 cs0 ce0 tag T0 S0 ND ALT. cbn [each].
      eapply yields_next with (P := fun l => l = [("@empty", AExtra (DString (if Nat.eqb i 0 then "@prefix" else "@suffix")))]);
        [auto| |apply (IH S2 S1 I2 I1 EF f ctrs (Datatypes.S i) a0 cs0 ce0 tag T0 S0 ND)|].
      + intros b g b' g' HO E. unfold list_step in E. cbn [fst snd] in E. apply cbind_inv in E as (b1 & E & X). inversion X; subst.
        eexists. split; [reflexivity|]. split; [now apply many_grew|apply grows_refl].
      + rewrite Nat.odd_succ. rewrite <- Nat.negb_odd. destruct (Nat.odd i); simpl; tauto.
      + intros l l' -> L. now apply (ln_skip (Nat.eqb i 0)).
    - intros gs t sep v cs k ks F IH FT IHT S1 S2 I1 I2 EF f ctrs i a0 cs0 ce0 tag T0 S0 ND ALT. cbn [each].
      eapply yields_next with (P := level gs t v); [auto| |apply (IHT S2 S1 I2 I1 EF f ctrs (Datatypes.S i) a0 cs0 ce0 tag T0 S0 ND)|].
      + intros b g b' g' HO E.
        assert (LR : list_step f T0 S0 (TDelim T0 S0 a0 cs0 ce0) tag ctrs i v (b, g) = from_node f (Some t) ctrs v (b, g)).
        { pose proof (fits_not_empty _ _ _ _ F) as NV. unfold list_step.
          assert (LT : lr_term T0 S0 (TDelim T0 S0 a0 cs0 ce0) NonAssociative i = t).
          { unfold lr_term. destruct (Nat.odd i); destruct ALT as [-> ->]; auto. }
          rewrite LT. assert (TS : term_same t (TDelim T0 S0 a0 cs0 ce0) = Some false).
          { destruct (Nat.odd i); destruct ALT as [-> ->]; [now apply term_same_sep|apply term_same_item]. }
          rewrite TS. destruct v; auto. congruence. }
        rewrite LR in E. exact (IH S1 I1 EF f ctrs _ _ _ _ HO E).
      + rewrite Nat.odd_succ. rewrite <- Nat.negb_odd. destruct (Nat.odd i); simpl; tauto.
      + intros l l' L L'. now apply ln_take.
  Qed.
End Parts.

(** * From the top *)

Theorem ast_parts : forall G r t x cs ks, smooth_grammar G -> coherent G -> r <> WrapRE -> lookup r G = Some t ->
  fits [G] t (Node r x cs) ks -> forall f b g', from_parser_node f G (Node r x cs) = COk (b, g') ->
  exists l, level [G] t (Node r x cs) l /\ made_of (("@rule", AExtra (DRule r)) :: l) b.
Proof.
  intros G r t x cs ks SG CG W L F f b g' E. pose proof (top_env G SG CG) as EF.
  assert (D : defines [G] r [G] t) by now constructor.
  destruct (defines_in _ _ _ _ _ D EF) as (_ & S & UM & IT & UR).
  unfold from_parser_node in E. rewrite L in E. apply cbind_inv in E as (cc & _ & E).
  destruct (proj1 (fits_parts (rules_in G)) _ _ _ _ F S IT EF f cc _ _ _ _ (top_holds G) E) as (l & LV & GR & _).
  exists l. split; auto. apply (GR [("@rule", AExtra (DRule r))]). split; [constructor; [tauto|constructor]|]. intros k. rewrite named_one. cbn [lookup]. rewrite String.eqb_sym.
  destruct (String.eqb "@rule" k); reflexivity.
Qed.

Lemma leaf_level : forall gs t v ks, fits gs t v ks -> own_tag t = true -> forall z, v = Leaf z -> level gs t v [("", ALeaf z)].
Proof. intros gs t v ks F. induction F; simpl; intros O z E; try discriminate; try (inversion E; subst; constructor; fail); constructor; auto. Qed.

(** What parsing a rule makes. *)
Theorem parsed_parts : forall c, cf_esc c = None -> forall g ps, compile (cf_eng c) g = COk ps ->
  readable (p_grammar ps) -> smooth_grammar (p_grammar ps) -> coherent (p_grammar ps) ->
  forall r t, r <> WrapRE -> r <> "" -> lookup r (p_grammar ps) = Some t -> own_tag t = true ->
  forall f s v s', drawn_ok (cf_rnd c) (draws c f ps r s) -> result (parse_rule c f ps r s) v s' ->
  forall n b g', from_parser_node n (p_grammar ps) v = COk (b, g') ->
  exists l, level [p_grammar ps] t v l /\
    match v with Leaf _ => made_of l b | _ => made_of (("@rule", AExtra (DRule r)) :: l) b end.
Proof.
  intros c NE g ps C R SG CG r t W NR L OT f s v s' D P n b g' E.
  destruct (compiled_fits c NE g ps C R SG f r s v s' D P) as (T & ks & LG & F). rewrite L in LG. inversion LG; subst T. clear LG.
  pose proof (compiled_again _ _ _ C (proj1 R)) as C2.
  pose proof (result_derives c NE _ ps C2 R f r s v s' D P) as X. unfold rule_derives in X.
  inversion X as [| | | | |? ? ? ? gs' u ? ? ? RB DD| | | | | | |]; subst.
  destruct (rule_body_smooth _ _ _ _ RB) as [G' S']; [constructor; auto|].
  assert (U : own_tag u = true).
  { inversion RB as [? ? ? u0 ? L0 A|? ? ? ? ? L0 _]; subst; [|congruence]. rewrite L in L0. inversion L0; subst u0.
    inversion A; subst; auto. discriminate. }
  destruct (tagged _ _ _ _ _ _ _ _ DD S' U NR) as [(z & ->)|(x & cs & ->)].
  - exists [("", ALeaf z)]. split; [eapply leaf_level; eauto|]. simpl in E. inversion E; subst. split; [constructor; [tauto|constructor]|]. intros k. rewrite named_one. cbn [lookup].
    rewrite String.eqb_sym. destruct (String.eqb "" k); reflexivity.
  - destruct (ast_parts _ _ _ _ _ _ SG CG W L F _ _ _ E) as (l & LV & M). eauto.
Qed.

(** * Only one AST *)

Lemma made_children : forall l b, made_of l b -> forall k, children_at k b = named k l.
Proof. intros l b [_ M] k. specialize (M k). unfold children_at. destruct (lookup k b) as [[n|ns]|]; auto. symmetry. apply M. Qed.

Definition alike_parts (l l' : list (string * anode)) : Prop := Forall2 (fun p q => fst p = fst q /\ alike (snd p) (snd q)) l l'.
Lemma alike_named : forall l l', alike_parts l l' -> forall k, alike_all (named k l) (named k l').
Proof.
  induction 1 as [|[m n] [m' n'] l l' [A B] F IH]; intros k; [constructor|]. simpl in A, B. subst. unfold named. cbn [filter fst].
  destruct (String.eqb m' k); [constructor; auto; apply IH|apply IH].
Qed.
Lemma alike_made : forall l l' b b', alike_parts l l' -> made_of l b -> made_of l' b' -> alike (ABranch b) (ABranch b').
Proof.
  intros l l' b b' A M M'. constructor. intros k. rewrite (made_children _ _ M), (made_children _ _ M'). now apply alike_named.
Qed.
Lemma alike_app : forall a a' b b', alike_parts a a' -> alike_parts b b' -> alike_parts (a ++ b) (a' ++ b').
Proof. intros. now apply Forall2_app. Qed.
Lemma alike_one : forall k n n', alike n n' -> alike_parts [(k, n)] [(k, n')].
Proof. intros k n n' A. constructor; [simpl; auto|constructor]. Qed.

Lemma echo_alike : forall i v n, echo i v n -> forall n', echo i v n' -> alike n n'.
Proof.
  intros i. induction v as [tag x cs IH|s|] using tree_ind'; intros n E n' E'; inversion E as [|? ? ? ns b EA M]; subst;
    inversion E' as [|? ? ? ns' b' EA' M']; subst; try constructor.
  intros k. rewrite (made_children _ _ M), (made_children _ _ M'). apply alike_named. clear - IH EA EA'.
  revert ns EA ns' EA'. induction IH as [|c cs H F IHF]; intros ns EA ns' EA'; inversion EA; subst; inversion EA'; subst; constructor; [simpl; eauto|].
  now apply IHF.
Qed.

Lemma defines_once : forall gs r gs' t, defines gs r gs' t -> forall gs2 t2, defines gs r gs2 t2 -> gs2 = gs' /\ t2 = t.
Proof.
  induction 1 as [g gs r t L|g gs r gs' t L D IH]; intros gs2 t2 D2; inversion D2 as [? ? ? ? L2|? ? ? ? ? L2 D3]; subst.
  - rewrite L in L2. inversion L2. auto.
  - congruence.
  - congruence.
  - auto.
Qed.
Lemma level_not_empty : forall gs t v l, level gs t v l -> v <> Empty.
Proof.
  assert (X : (forall gs t v l, level gs t v l -> v <> Empty) /\ (forall gs ts cs l, level_all gs ts cs l -> True) /\
      (forall gs t cs l, level_many gs t cs l -> True) /\ (forall i gs t sep cs l, level_turns i gs t sep cs l -> True)).
  { apply level_mutind; intros; auto; try discriminate. inversion H; discriminate. }
  exact (proj1 X).
Qed.

Theorem level_unique :
  (forall gs t v l, level gs t v l -> forall l', level gs t v l' -> alike_parts l l') /\
  (forall gs ts cs l, level_all gs ts cs l -> forall l', level_all gs ts cs l' -> alike_parts l l') /\
  (forall gs t cs l, level_many gs t cs l -> forall l', level_many gs t cs l' -> alike_parts l l') /\
  (forall i gs t sep cs l, level_turns i gs t sep cs l -> forall l', level_turns i gs t sep cs l' -> alike_parts l l').
Proof.
  apply level_mutind.
  - intros gs x s l' H. inversion H; subst. apply alike_one. constructor.
  - intros gs x s l' H. inversion H; subst. apply alike_one. constructor.
  - intros gs n t v l b L IH M l' H. inversion H; subst. apply alike_one. eapply alike_made; eauto.
  - intros gs r gs' t v l b D L IH M l' H. inversion H as [| | |? ? ? ? ? ? ? D' L' M'| | | | | | | |]; subst.
    destruct (defines_once _ _ _ _ D _ _ D') as [-> ->]. apply alike_one. eapply alike_made; eauto.
  - intros gs i d v n E l' H. inversion H; subst. apply alike_one. eapply echo_alike; eauto.
  - intros gs t v l L IH l' H. inversion H; subst. auto.
  - intros gs t g v l L IH l' H. inversion H; subst. auto.
  - intros gs ts tag cs l L IH l' H. inversion H; subst. auto.
  - intros gs ts tag i t v l N L IH l' H. inversion H as [| | | | | | | |? ? ? ? t' ? ? N' L'| | |]; subst.
    rewrite N in N'. inversion N'; subst. apply (alike_app [_] [_]); [apply alike_one; constructor|auto].
  - intros gs t mn mx tag cs l L IH l' H. inversion H; subst. auto.
  - intros gs t tag v l L IH l' H. inversion H; subst. auto.
  - intros gs t sep a cs ce tag items l L IH l' H. inversion H; subst. auto.
  - intros gs l' H. inversion H; subst. constructor.
  - intros gs t ts v cs l l1 L IH L1 IH1 l' H. inversion H; subst. apply alike_app; auto.
  - intros gs t l' H. inversion H; subst. constructor.
  - intros gs t v cs l l1 L IH L1 IH1 l' H. inversion H; subst. apply alike_app; auto.
  - intros i gs t sep l' H. inversion H; subst. constructor.
  - intros i gs t sep cs l L IH l' H. inversion H as [|? ? ? ? ? l1 L1|? ? ? ? ? ? l1 l2 L1]; subst.
    + apply (alike_app [_] [_]); [apply alike_one; constructor|auto].
    + exfalso. eapply level_not_empty; eauto.
  - intros i gs t sep v cs l l1 L IH L1 IH1 l' H. inversion H as [|? ? ? ? ? l2 L2|? ? ? ? ? ? l2 l3 L2]; subst.
    + exfalso. eapply level_not_empty; eauto.
    + apply alike_app; auto.
Qed.
Theorem parts_unique : forall gs t v l l', level gs t v l -> level gs t v l' ->
  forall b b', made_of l b -> made_of l' b' -> alike (ABranch b) (ABranch b').
Proof. intros gs t v l l' L L' b b' M M'. apply (alike_made l l'); auto. exact (proj1 level_unique _ _ _ _ L _ L'). Qed.
