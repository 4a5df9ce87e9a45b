(** Generated getters and the trees and ASTs of the parser. *)
From Verif Require Import Base Scanner Syntax Engine Resolve Compile Parse PegSpec DerivSpec FlowSpec CutSpec ApiSpec
  CompileProofs ReorderProofs DerivProofs FordProofs FlowProofs ApiProofs ChainProofs TopProofs Ast AstSpec AstProofs AstNodeProofs AstParse AstCount AstConvert AstFits Codegen Types TypesSpec TypesProofs.
Local Open Scope string_scope.

(** The names in the AST of a tree. *)
Lemma ast_names : forall G r t x cs ks, smooth_grammar G -> coherent G -> r <> WrapRE -> lookup r G = Some t ->
  fits [G] t (Node r x cs) ks -> forall f b g' k c, from_parser_node f G (Node r x cs) = COk (b, g') ->
  lookup k b = Some c -> prefix "@" k = false -> exists m, In m ks /\ stem m = k.
Proof.
  intros G r t x cs ks SG CG W L F f b g' k c E Lk NA.
  destruct (top_level G r t x cs ks SG CG W L F) as (N & cc & EC & T & UL & H).
  destruct (H (Nat.max N f) ltac:(lia)) as (b2 & g2 & E2 & TR).
  assert (b2 = b /\ g2 = g') as [-> ->].
  { unfold from_parser_node in E, E2. rewrite L, EC in E, E2. cbn [cbind] in E, E2.
    apply (from_node_fuel _ (Nat.max N f)) in E; [|lia]. rewrite E in E2. inversion E2. auto. }
  destruct (tr_only _ _ _ TR _ _ Lk) as [A|(m & I & Em)]; [congruence|eauto].
Qed.
Lemma leaf_names : forall gs t v ks, fits gs t v ks -> own_tag t = true -> forall z, v = Leaf z -> ks = [""].
Proof. intros gs t v ks F. induction F; simpl; intros O z E; try discriminate; eauto. Qed.
Lemma fits_repeating : forall x lits, (lits = true -> x <> "") -> forall gs t v ks, fits gs t v ks -> open_term lits t = true -> In x ks ->
  In x (map fst (turns t)).
Proof. intros x lits L. exact (proj1 (fits_turns_names x lits L)). Qed.

Section Builder.
  Variables (camel : string -> string) (rand : nat -> Z).

  (** What is known of a rule whose trees are read. *)
  Theorem tree_child : forall g ds, proper_names g -> generated_types camel rand g = COk ds -> forall r t, lookup r g = Some t ->
    forall lits, open_term lits t = true -> forall gs v ks, fits gs t v ks -> forall x, In x ks -> (lits = true -> x <> "") ->
    reads_child ds (go_type_name camel (go_name camel r)) x.
  Proof. intros g ds N E r t L. apply (every_child camel rand g ds N E). now apply lookup_In in L. Qed.

  Theorem tree_all : forall g ds, proper_names g -> generated_types camel rand g = COk ds -> forall r t, lookup r g = Some t ->
    forall lits, open_term lits t = true -> forall gs v ks, fits gs t v ks -> forall x, 2 <= count_occ string_dec ks x -> (lits = true -> x <> "") ->
    (2 <= most x t -> noticed x t = true) -> reads_all ds (go_type_name camel (go_name camel r)) x.
  Proof.
    intros g ds N E r t L lits O gs v ks F x C LX H.
    assert (I : In x ks) by (apply (count_occ_In string_dec); lia).
    apply (every_noticed camel rand g ds N E r t (lookup_In _ _ _ L) x).
    - eapply fits_repeating; eauto.
    - apply H. destruct (Nat.le_gt_cases 2 (most x t)); auto. pose proof (proj1 (fits_most x) _ _ _ _ F ltac:(lia)). lia.
  Qed.

  Theorem ast_child : forall g ds, proper_names g -> generated_types camel rand g = COk ds ->
    smooth_grammar g -> coherent g -> forall r, r <> WrapRE -> forall t, lookup r g = Some t -> forall lits, open_term lits t = true -> (forall m, In m (map fst (turns t)) -> ordinary m = true) ->
    forall x cs ks, fits [g] t (Node r x cs) ks -> forall f b g' k c, from_parser_node f g (Node r x cs) = COk (b, g') -> lookup k b = Some c -> prefix "@" k = false ->
    (lits = true -> k <> "") -> reads_child ds (go_type_name camel (go_name camel r)) k.
  Proof.
    intros g ds N E SG CG r W t L lits O ORD x cs ks F f b g' k c FP Lk NA LX.
    destruct (ast_names g r t x cs ks SG CG W L F f b g' k c FP Lk NA) as (m & I & S).
    destruct lits.
    - assert (M0 : m = "" -> False).
      { intros ->. apply LX; auto. }
      assert (J : In m (map fst (turns t))) by (apply (fits_repeating m true (fun _ A => M0 A) _ _ _ _ F O I)).
      apply ORD in J. unfold ordinary in J. apply String.eqb_eq in J. rewrite <- S, J in *. eapply tree_child; eauto.
    - assert (J : In m (map fst (turns t))) by (apply (fits_repeating m false ltac:(discriminate) _ _ _ _ F O I)).
      apply ORD in J. unfold ordinary in J. apply String.eqb_eq in J. rewrite <- S, J in *. eapply tree_child; eauto.
  Qed.

  Theorem parsed_child : forall g ds, proper_names g -> generated_types camel rand g = COk ds ->
    smooth_grammar g -> coherent g -> readable g -> forall cf ps, cf_esc cf = None -> compile (cf_eng cf) g = COk ps ->
    forall r t, r <> WrapRE -> r <> "" -> lookup r g = Some t -> own_tag t = true ->
    forall lits, open_term lits t = true -> (forall m, In m (map fst (turns t)) -> ordinary m = true) ->
    forall f s v s', drawn_ok (cf_rnd cf) (draws cf f ps r s) -> result (parse_rule cf f ps r s) v s' ->
    forall n b g' k c, from_parser_node n g v = COk (b, g') -> lookup k b = Some c -> prefix "@" k = false ->
    (lits = true -> k <> "") -> reads_child ds (go_type_name camel (go_name camel r)) k.
  Proof.
    intros g ds N E SG CG R cf ps NE C r t W NR L OT lits O ORD f s v s' D P n b g' k c FP Lk NA LX.
    assert (PG : p_grammar ps = g).
    { pose proof (compile_resolves _ _ _ C) as RS. rewrite resolve_stacks_fixed in RS; [now inversion RS|].
      intros q ls I. pose proof (proj1 R) as NS. unfold no_stack_grammar in NS. rewrite forallb_forall in NS. specialize (NS _ I). discriminate. }
    destruct (compiled_fits cf NE g ps C ltac:(now rewrite PG) ltac:(now rewrite PG) f r s v s' D P) as (T & ks & LG & F).
    rewrite PG in *. rewrite L in LG. inversion LG; subst T. clear LG.
    pose proof (result_derives cf NE _ ps C R f r s v s' D P) as X. unfold rule_derives in X.
    inversion X as [| | | | |? ? ? ? gs' u ? ? ? RB DD| | | | | | |]; subst.
    destruct (rule_body_smooth _ _ _ _ RB) as [G' S']; [constructor; auto|].
    assert (U : own_tag u = true).
    { inversion RB as [? ? ? u0 ? L0 A|? ? ? ? ? L0 _]; subst; [|congruence]. rewrite L in L0. inversion L0; subst u0.
      inversion A; subst; auto. discriminate. }
    destruct (tagged _ _ _ _ _ _ _ _ DD S' U NR) as [(z & ->)|(x & cs & ->)].
    - pose proof (leaf_names _ _ _ _ F OT z eq_refl) as KS. simpl in FP. inversion FP; subst. simpl in Lk.
      destruct (String.eqb_spec k ""); [|discriminate]. subst k.
      eapply tree_child; eauto. now left.
    - eapply ast_child; eauto.
  Qed.

  (** With two children of a name there is a getter for all of them. *)
  Theorem parsed_all : forall g ds, proper_names g -> generated_types camel rand g = COk ds ->
    smooth_grammar g -> coherent g -> readable g -> forall cf ps, cf_esc cf = None -> compile (cf_eng cf) g = COk ps ->
    forall r t, r <> WrapRE -> r <> "" -> lookup r g = Some t -> own_tag t = true ->
    forall lits, open_term lits t = true -> (forall m, In m (map fst (turns t)) -> ordinary m = true) ->
    forall f s v s', drawn_ok (cf_rnd cf) (draws cf f ps r s) -> result (parse_rule cf f ps r s) v s' ->
    forall n b g' k, from_parser_node n g v = COk (b, g') -> 2 <= length (children_at k b) -> prefix "@" k = false ->
    (lits = true -> k <> "") -> (2 <= most k t -> noticed k t = true) -> reads_all ds (go_type_name camel (go_name camel r)) k.
  Proof.
    intros g ds N E SG CG R cf ps NE C r t W NR L OT lits O ORD f s v s' D P n b g' k FP Lk NA LX NOT.
    assert (PG : p_grammar ps = g).
    { pose proof (compile_resolves _ _ _ C) as RS. rewrite resolve_stacks_fixed in RS; [now inversion RS|].
      intros q ls I. pose proof (proj1 R) as NS. unfold no_stack_grammar in NS. rewrite forallb_forall in NS. specialize (NS _ I). discriminate. }
    destruct (compiled_fits cf NE g ps C ltac:(now rewrite PG) ltac:(now rewrite PG) f r s v s' D P) as (T & ks & LG & F).
    rewrite PG in *. rewrite L in LG. inversion LG; subst T. clear LG.
    pose proof (result_derives cf NE _ ps C R f r s v s' D P) as X. unfold rule_derives in X.
    inversion X as [| | | | |? ? ? ? gs' u ? ? ? RB DD| | | | | | |]; subst.
    destruct (rule_body_smooth _ _ _ _ RB) as [G' S']; [constructor; auto|].
    assert (U : own_tag u = true).
    { inversion RB as [? ? ? u0 ? L0 A|? ? ? ? ? L0 _]; subst; [|congruence]. rewrite L in L0. inversion L0; subst u0.
      inversion A; subst; auto. discriminate. }
    destruct (tagged _ _ _ _ _ _ _ _ DD S' U NR) as [(z & ->)|(x & cs & ->)].
    - simpl in FP. inversion FP; subst. unfold children_at in Lk. simpl in Lk. destruct (String.eqb k ""); simpl in Lk; lia.
    - erewrite recorded_all in Lk by eauto.
      eapply tree_all; eauto. clear - Lk F O ORD LX.
      assert (A : forall m, In m ks -> stem m = k -> m = k).
      { intros m I S. assert (M0 : lits = true -> m <> "") by (intros E ->; apply LX; auto).
        pose proof (fits_repeating m lits M0 _ _ _ _ F O I) as J. apply ORD in J. unfold ordinary in J. apply String.eqb_eq in J. congruence. }
      clear - Lk A. assert (length (filter (fun m => String.eqb (stem m) k) ks) <= count_occ string_dec ks k); [|lia].
      clear Lk. induction ks as [|m ks IH]; auto. cbn [filter count_occ].
      assert (IH' := IH (fun y I => A y (or_intror I))). destruct (String.eqb_spec (stem m) k) as [S|S].
      + rewrite (A m (or_introl eq_refl) S). destruct (string_dec k k); [|congruence]. simpl. lia.
      + destruct (string_dec m k); lia.
  Qed.
End Builder.
