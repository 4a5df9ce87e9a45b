(** The generated walk functions. *)
From Verif Require Import Base Scanner Syntax Engine Resolve Compile Parse PegSpec DerivSpec FlowSpec CutSpec ApiSpec
  CompileProofs ReorderProofs DerivProofs FordProofs FlowProofs ApiProofs ChainProofs TopProofs Ast AstSpec AstProofs AstNodeProofs AstParse AstCount AstConvert AstFits
  Codegen CodegenProofs Types TypesSpec TypesProofs TypesTop TypesRun TypesKeep.
Local Open Scope string_scope.

(** * Children without tokens of a name *)

Definition not_token (x : option string) (c : gchild) : Prop :=
  match c with
  | GToken n _ _ => x <> Some n
  | GStackRef _ _ => False
  | _ => True
  end.
Definition no_tokens (x : option string) (tm : types) : Prop := forall k ty, lookup k tm = Some ty -> Forall (not_token x) (upgraded ty).
Lemma bump_not_token : forall x n c, not_token x c -> not_token x (bump n c).
Proof. intros x n c H. unfold bump. destruct (String.eqb _ _); auto. now destruct c. Qed.
Lemma no_tokens_add : forall camel x p c tm, not_token x c -> no_tokens x tm -> no_tokens x (add_child camel p c tm).
Proof.
  intros camel x p c tm A H k ty. rewrite lookup_add. destruct (String.eqb_spec k (go_type_name camel p)) as [->|N]; [|apply H].
  intros E. inversion E; subst; clear E. destruct (lookup (go_type_name camel p) tm) as [ty0|] eqn:L.
  - simpl. pose proof (H _ _ L) as F. destruct (check_dupes_eq (upgraded ty0) c) as [(E & _)|E]; rewrite E; auto.
    apply Forall_app. split.
    + apply Forall_forall. intros d I. apply in_map_iff in I as (e & <- & I). apply bump_not_token. rewrite Forall_forall in F. auto.
    + destruct (existsb _ _); auto.
  - destruct c; simpl in *; try (constructor; auto; fail). destruct (t_one count); simpl; constructor; simpl; auto.
Qed.
Definition token_checks (x : option string) : term -> bool :=
  checks (fun r => negb (String.eqb r "@")) (fun _ => true)
    (fun n u => match u with TS _ | TRE _ | TCut _ => match x with Some y => negb (String.eqb n y) | None => true end | _ => true end).
Lemma tokens_checks : forall x t, without "@" t = true -> (forall y, x = Some y -> ~ In y (token_names t)) -> token_checks x t = true.
Proof.
  intros x. unfold token_checks.
  assert (LS : forall ts, Forall (fun t => without "@" t = true -> (forall y, x = Some y -> ~ In y (token_names t)) -> token_checks x t = true) ts ->
    forallb (without "@") ts = true -> (forall y, x = Some y -> ~ In y (flat_map token_names ts)) -> forallb (token_checks x) ts = true).
  { intros ts F. induction F as [|t ts H F IH]; simpl; intros A C; auto. apply andb_true_iff in A as [A1 A2].
    rewrite H, IH; auto; intros y E I; apply (C y E); apply in_or_app; auto. }
  induction t using term_ind'; cbn [without token_names checks]; intros A C; try reflexivity; try (apply LS; assumption); try (apply IHt; assumption).
  - exact A.
  - apply andb_true_iff in A as [A1 A2]. rewrite IHt1, IHt2; auto; intros y E I; apply (C y E); apply in_or_app; auto.
  - apply andb_true_iff in A as [A1 A2]. rewrite IHt; auto; [|intros y E I; apply (C y E); apply in_or_app; auto]. rewrite andb_true_r.
    destruct t; auto; destruct x as [y|]; auto; destruct (String.eqb_spec n y); auto; subst; exfalso; apply (C y eq_refl); now left.
  - apply andb_true_iff in A as [A1 A2]. rewrite IHt; auto; [|intros y E I; apply (C y E); apply in_or_app; auto]. simpl.
    apply forallb_forall. intros kv I. rewrite Forall_forall in H. rewrite forallb_forall in A2. specialize (A2 _ I). apply andb_true_iff in A2 as [_ A2].
    apply H; auto. intros y E J. apply (C y E). apply in_or_app. right. apply in_flat_map. eauto.
Qed.

Section Builder.
  Variables (camel : string -> string) (rand : nat -> Z).

  Lemma types_no_tokens : forall x g tm, grammar_without "@" g = true -> (forall y, x = Some y -> ~ In y (grammar_tokens g)) -> make_types camel rand g = COk tm -> no_tokens x tm.
  Proof.
    intros x g tm A C M.
    refine (types_keep camel rand (fun r => negb (String.eqb r "@")) (fun _ => true)
      (fun n u => match u with TS _ | TRE _ | TCut _ => match x with Some y => negb (String.eqb n y) | None => true end | _ => true end) (not_token x) (no_tokens x) _ _ _ _ _ _ _ _ _ g tm _ M _); simpl; auto.
    - intros r H. split; auto. intros ->. discriminate.
    - intros n u H Q _ _. destruct x as [y|]; [|discriminate]. intros E. inversion E; subst. destruct u; try contradiction; rewrite String.eqb_refl in H; discriminate.
    - intros p c tm' _. apply no_tokens_add.
    - intros tm' k ty O L. specialize (O _ _ L). destruct ty; auto. constructor.
    - apply forallb_forall. intros kv I. unfold grammar_without in A. rewrite forallb_forall in A. specialize (A _ I). apply andb_true_iff in A as [_ A].
      apply tokens_checks; auto. intros y E J. apply (C y E). apply in_flat_map. eauto.
    - intros k ty E. discriminate.
  Qed.

  (** * The entries of the walks *)

  Lemma lookup_each : forall A (f : string -> option A) T ks, In T ks ->
    lookup T (flat_map (fun k => match f k with Some v => [(k, v)] | None => [] end) ks) = f T.
  Proof.
    intros A f T. induction ks as [|k ks IH]; intros I; [contradiction|]. cbn [flat_map]. destruct (string_dec T k) as [<-|N].
    - destruct (f T) as [v|] eqn:E; simpl; [now rewrite String.eqb_refl|]. destruct (in_dec string_dec T ks) as [J|J]; [now rewrite IH|].
      clear IH I. induction ks as [|k ks IH]; simpl; auto. destruct (f k) as [v|] eqn:Ek; simpl.
      + destruct (String.eqb_spec T k) as [->|N]; [congruence|]. apply IH. intros X. apply J. now right.
      + apply IH. intros X. apply J. now right.
    - destruct I as [I|I]; [congruence|]. destruct (f k); simpl; auto. destruct (String.eqb_spec T k); [congruence|auto].
  Qed.
  Lemma walks_at : forall tm T n c cs, homed camel tm -> lookup T tm = Some (GRule n (c :: cs)) ->
    lookup T (walks camel tm) = Some (flat_map (visit camel tm) (sort_children (c :: cs))).
  Proof.
    intros tm T n c cs H L.
    set (f := fun k => match lookup k tm with Some (GRule _ (c :: cs)) => Some (flat_map (visit camel tm) (sort_children (c :: cs))) | _ => None end).
    assert (E : walks camel tm = flat_map (fun k => match f k with Some v => [(k, v)] | None => [] end) (sort_strings (map fst tm))).
    { unfold walks. apply flat_map_ext. intros k. unfold f. destruct (lookup k tm) as [[?|m [|d ds]]|] eqn:K; auto.
      destruct (H _ _ K) as (E & -> & _). now rewrite E. }
    rewrite E, lookup_each; [unfold f; now rewrite L|].
    apply (Permutation_in _ (Permutation_sym (sort_perm _))). apply in_map_iff. exists (T, GRule n (c :: cs)). split; auto. now apply (lookup_In _ _ _ L).
  Qed.
  Lemma walks_only : forall tm T l, homed camel tm -> lookup T (walks camel tm) = Some l ->
    exists n cs, lookup T tm = Some (GRule n cs) /\ l = flat_map (visit camel tm) (sort_children cs).
  Proof.
    intros tm T l H L. pose proof (lookup_In _ _ _ L) as I. unfold walks in I. apply in_flat_map in I as (k & _ & I).
    destruct (lookup k tm) as [[?|n [|c cs]]|] eqn:K; try contradiction. destruct I as [I|[]]. destruct (H _ _ K) as (E & -> & _).
    rewrite E in I. inversion I; subst. eauto.
  Qed.
  Lemma calls_ref : forall tm T n cs x p r m, homed camel tm -> lookup T tm = Some (GRule n cs) -> In (GRef x p r m) cs ->
    calls (walks camel tm) T (go_name camel x) (t_all m) (go_type_name camel r).
  Proof.
    intros tm T n cs x p r m H L I. destruct cs as [|c cs]; [contradiction|].
    exists (flat_map (visit camel tm) (sort_children (c :: cs))). eexists. split; [now apply (walks_at tm T n)|].
    apply in_flat_map. exists (GRef x p r m). split; [now apply sort_children_in|]. now left.
  Qed.

  (** Everything that is known of the types of a grammar. *)
  Lemma make_types_home : forall g tm, proper_names g -> make_types camel rand g = COk tm -> homed camel tm /\ proper_types tm.
  Proof.
    intros g tm N M. destruct g as [|[r t] g]; [inversion M; subst; split; [apply homed_nil|apply proper_nil]|].
    destruct (make_types_at camel rand _ tm r t N M (or_introl eq_refl)) as (A & B & _). auto.
  Qed.

  (** The getters that are called are declared. *)
  Theorem calls_declared : forall g ds ws, proper_names g -> generated_types camel rand g = COk ds -> generated_walks camel rand g = COk ws ->
    forall T getter all R, calls ws T getter all R ->
    exists x, In (DMethod T (getter_name getter all) (if all then MAll x (Some R) else MOne x (Some R))) ds.
  Proof.
    intros g ds ws N E W T getter all R (l & w & L & I). unfold generated_types in E. unfold generated_walks in W.
    destruct (make_types camel rand g) as [tm| |] eqn:M; try discriminate. inversion E; inversion W; subst. clear E W.
    destruct (make_types_home g tm N M) as [H P]. destruct (walks_only tm T l H L) as (n & cs & K & ->).
    pose proof (types_no_tokens None g tm (proj2 (proj2 N)) ltac:(discriminate) M _ _ K) as NT. simpl in NT.
    apply in_flat_map in I as (c & I & V). rewrite sort_children_in in I. rewrite Forall_forall in NT. specialize (NT _ I).
    destruct (H _ _ K) as (_ & -> & F). simpl in F. rewrite Forall_forall in F. specialize (F _ I).
    specialize (P _ _ K). simpl in P. rewrite Forall_forall in P. specialize (P _ I).
    destruct c; simpl in *; try contradiction. destruct V as [V|[]]. inversion V; subst. exists name.
    apply (in_decls camel tm _ _ _ K). right. apply in_flat_map. exists (GRef name parent ret count). split; [now apply sort_children_in|].
    simpl. unfold getters, getter_name. destruct P as [_ [P|P]]; rewrite P; destruct (t_all count) eqn:A; simpl; auto; try (apply in_or_app; right; now left); try discriminate.
  Qed.

  (** What is walked has a walk function, what is only entered has none. *)
  Definition filled (tm : types) : Prop := forall k n cs, lookup k tm = Some (GRule n cs) -> cs <> [].
  Lemma filled_add : forall p c tm, filled tm -> filled (add_child camel p c tm).
  Proof.
    intros p c tm H k n cs. rewrite lookup_add. destruct (String.eqb_spec k (go_type_name camel p)) as [->|N]; [|apply H].
    intros E. destruct (lookup (go_type_name camel p) tm) as [ty0|] eqn:L.
    - inversion E; subst; clear E. destruct (check_dupes_eq (upgraded ty0) c) as [(E & _ & d & I & _)|E]; rewrite E.
      + intros X. rewrite X in I. contradiction.
      + destruct (upgraded ty0); simpl; discriminate.
    - destruct c; simpl in E; try (inversion E; discriminate). destruct (t_one count); inversion E. discriminate.
  Qed.
  Lemma make_types_filled : forall g tm, make_types camel rand g = COk tm -> filled tm.
  Proof.
    intros g tm E. unfold make_types in E.
    destruct (walk_rules camel rand (walk_term camel rand) "" (merge_known camel "" g []) g (mkT [] 0)) as [st| |] eqn:W; try discriminate.
    inversion E; subst. refine (keeps_rules camel rand filled (fun p c tm _ => filled_add p c tm) g _ _ _ _ _ W _).
    - apply Forall_forall. intros kv _. apply (walk_keeps camel rand filled (fun p c tm _ => filled_add p c tm)).
    - intros k n cs L. discriminate.
  Qed.
  Theorem walked_exist : forall g tops ws, proper_names g -> settled_grammar g = true ->
    (forall r, In r tops -> In r (map fst g) /\ go_name camel (go_name camel r) = go_name camel r) ->
    forallb (fun kv => returned tops (snd kv)) g = true -> generated_walks camel rand g = COk ws ->
    forall T l getter all R w, lookup T ws = Some l -> In (getter, all, R, w) l -> (w = true <-> lookup R ws <> None).
  Proof.
    intros g tops ws N S TP RT W T l getter al R w L I.
    destruct (generated_types camel rand g) as [ds| |] eqn:E; [|unfold generated_types, generated_walks in *; destruct (make_types camel rand g); discriminate..].
    destruct (calls_declared g ds ws N E W T getter al R) as (x & D); [exists l, w; auto|].
    assert (RD : In (DType R) ds) by (apply (results_declared camel rand g tops ds S TP RT E _ _ _ R D); now destruct al).
    unfold generated_types in E. unfold generated_walks in W.
    destruct (make_types camel rand g) as [tm| |] eqn:M; try discriminate. inversion E; inversion W; subst. clear E W.
    destruct (make_types_home g tm N M) as [H P]. destruct (walks_only tm T l H L) as (n & cs & K & ->).
    assert (LR : exists ty, lookup R tm = Some ty).
    { unfold decls in RD. apply in_flat_map in RD as (k & _ & RD). destruct (lookup k tm) as [ty|] eqn:Q; [|contradiction].
      destruct (H _ _ Q) as (KK & NN & _). destruct ty; subst; simpl in RD.
      - destruct RD as [RD|[RD|[]]]; inversion RD; subst. rewrite KK. eauto.
      - destruct RD as [RD|RD]; [inversion RD; subst; rewrite KK; eauto|]. apply in_flat_map in RD as (c & _ & RD). destruct c; simpl in RD; unfold getters in RD;
          try (destruct RD as [RD|[]]; discriminate); apply in_app_or in RD as [RD|RD]; match type of RD with In _ (if ?b then _ else _) => destruct b | _ => idtac end; simpl in RD; try contradiction; destruct RD as [RD|[]]; discriminate. }
    destruct LR as (ty & LR).
    pose proof (types_no_tokens None g tm (proj2 (proj2 N)) ltac:(discriminate) M _ _ K) as NT. simpl in NT.
    apply in_flat_map in I as (c & I & V). rewrite sort_children_in in I. rewrite Forall_forall in NT. specialize (NT _ I).
    destruct c; simpl in V, NT; try contradiction. destruct V as [V|[]]. inversion V; subst. rewrite LR. destruct ty as [b|b ds'].
    - split; [discriminate|]. intros X. destruct (lookup (go_type_name camel ret) (walks camel tm)) eqn:Q; [|congruence].
      destruct (walks_only _ _ _ H Q) as (? & ? & Q' & _). congruence.
    - split; auto. intros _. destruct ds' as [|c ds']; [exfalso; now apply (make_types_filled g tm M _ _ _ LR)|]. rewrite (walks_at _ _ _ _ _ H LR). discriminate.
  Qed.

  (** The getters for nodes are called, and those for all of them if there are such. *)
  Theorem nodes_called : forall g ds ws, proper_names g -> generated_types camel rand g = COk ds -> generated_walks camel rand g = COk ws ->
    forall T n m R, In (DMethod T n m) ds -> result_type m = Some R ->
    exists getter all, calls ws T getter all R /\ (n = getter_name getter all \/ (all = true /\ n = getter_name getter false)).
  Proof.
    intros g ds ws N E W T n m R I RT. unfold generated_types in E. unfold generated_walks in W.
    destruct (make_types camel rand g) as [tm| |] eqn:M; try discriminate. inversion E; inversion W; subst. clear E W.
    destruct (make_types_home g tm N M) as [H P]. unfold decls in I. apply in_flat_map in I as (k & _ & I).
    destruct (lookup k tm) as [[?|b cs]|] eqn:K; [simpl in I; destruct I as [I|[I|[]]]; inversion I; subst; discriminate| |contradiction].
    simpl in I. destruct I as [I|I]; [discriminate|]. apply in_flat_map in I as (c & J & I). rewrite sort_children_in in J.
    pose proof (types_no_tokens None g tm (proj2 (proj2 N)) ltac:(discriminate) M _ _ K) as NT. simpl in NT.
    rewrite Forall_forall in NT. specialize (NT _ J).
    destruct (H _ _ K) as (_ & -> & F). simpl in F. rewrite Forall_forall in F. specialize (F _ J).
    destruct c; simpl in I, NT, F; try contradiction; try (destruct I as [I|[]]; inversion I; subst; discriminate);
      unfold getters in I; apply in_app_or in I; destruct (t_one count), (t_all count) eqn:A; simpl in I;
      repeat match goal with X : _ \/ _ |- _ => destruct X | X : False |- _ => contradiction | X : DMethod _ _ _ = DMethod _ _ _ |- _ => inversion X; clear X; subst end;
      try discriminate; simpl in RT; inversion RT; subst; pose proof (calls_ref tm _ _ _ _ _ _ _ H K J) as CR; rewrite A in CR;
      eexists; eexists; (split; [exact CR|]); auto.
  Qed.

  (** Nodes with a name that no token has are visited. *)
  Theorem part_called : forall g tm, proper_names g -> make_types camel rand g = COk tm ->
    forall r t, In (r, t) g -> forall x, x <> "" -> In (x, false) (turns t) -> ~ In x (grammar_tokens g) ->
    (exists all R, calls (walks camel tm) (go_type_name camel (go_name camel r)) (go_name camel x) all R) /\
    (noticed x t = true -> exists R, calls (walks camel tm) (go_type_name camel (go_name camel r)) (go_name camel x) true R).
  Proof.
    intros g tm N M r t I x NE J NTK. destruct (make_types_home g tm N M) as [H P].
    pose proof (types_no_tokens (Some x) g tm (proj2 (proj2 N)) ltac:(intros y E; inversion E; now subst) M) as NT.
    assert (GO : forall ty m, lookup (rule_type camel r) tm = Some ty -> slot ty x m -> exists R, calls (walks camel tm) (rule_type camel r) (go_name camel x) (t_all m) R).
    { intros ty m L S. specialize (NT _ _ L). destruct ty as [b|b cs]; [now destruct S|]. destruct S as (c & Ic & C). simpl in NT. rewrite Forall_forall in NT. specialize (NT _ Ic).
      destruct c; simpl in C, NT; try contradiction; destruct C; subst; try congruence. eexists. eapply calls_ref; eauto. }
    split.
    - destruct (part_slot camel rand g tm N M r t I x J) as (ty & m & L & S). exists (t_all m). eauto.
    - intros NO. destruct (noticed_all camel rand g tm N M r t I x) as (ty & m & L & S & A); auto; [apply in_map_iff; exists (x, false); auto|].
      rewrite <- A. eauto.
  Qed.

  (** On trees, ... *)
  Theorem tree_called : forall g ws, proper_names g -> generated_walks camel rand g = COk ws -> forall r t, lookup r g = Some t ->
    forall lits, open_term lits t = true -> forall gs v ks, fits gs t v ks -> forall x, In x ks -> x <> "" -> ~ In (x, true) (turns t) -> ~ In x (grammar_tokens g) ->
    exists all R, calls ws (go_type_name camel (go_name camel r)) (go_name camel x) all R /\
      (2 <= count_occ string_dec ks x -> (2 <= most x t -> noticed x t = true) -> all = true).
  Proof.
    intros g ws N W r t L lits O gs v ks F x X NE NB NTK. unfold generated_walks in W. destruct (make_types camel rand g) as [tm| |] eqn:M; try discriminate.
    inversion W; subst. pose proof (fits_repeating x lits ltac:(auto) _ _ _ _ F O X) as J. apply in_map_iff in J as ([y [|]] & E & J); simpl in E; subst y; [contradiction|].
    destruct (part_called g tm N M r t (lookup_In _ _ _ L) x NE J NTK) as ((all & R & C) & A).
    destruct (Compare_dec.le_lt_dec 2 (count_occ string_dec ks x)) as [G|G]; [|exists all, R; split; auto; lia].
    destruct (noticed x t) eqn:NO.
    - destruct (A eq_refl) as (R' & C'). exists true, R'. auto.
    - exists all, R. split; auto. intros _ H. pose proof (proj1 (fits_most x) _ _ _ _ F) as Q. destruct (Nat.le_gt_cases 2 (most x t)); [|lia]. now apply H in H0.
  Qed.

  (** ... and on parsed texts. *)
  Theorem parsed_called : forall g ws, proper_names g -> generated_walks camel rand g = COk ws ->
    smooth_grammar g -> coherent g -> readable g -> forall cf ps, cf_esc cf = None -> compile (cf_eng cf) g = COk ps ->
    forall r t, r <> WrapRE -> r <> "" -> lookup r g = Some t -> own_tag t = true ->
    forall lits, open_term lits t = true -> (forall m, In m (map fst (turns t)) -> ordinary m = true) ->
    forall f s v s', drawn_ok (cf_rnd cf) (draws cf f ps r s) -> result (parse_rule cf f ps r s) v s' ->
    forall n b g' k c, from_parser_node n g v = COk (b, g') -> lookup k b = Some c -> prefix "@" k = false ->
    k <> "" -> ~ In (k, true) (turns t) -> ~ In k (grammar_tokens g) ->
    exists all R, calls ws (go_type_name camel (go_name camel r)) (go_name camel k) all R /\
      (2 <= length (children_at k b) -> (2 <= most k t -> noticed k t = true) -> all = true).
  Proof.
    intros g ws N E SG CG R cf ps NE C r t W NR L OT lits O ORD f s v s' D P n b g' k c FP Lk NA KE NB NTK.
    assert (PG : p_grammar ps = g).
    { pose proof (compile_resolves _ _ _ C) as RS. rewrite resolve_stacks_fixed in RS; [now inversion RS|].
      intros q ls I. pose proof (proj1 R) as NS. unfold no_stack_grammar in NS. rewrite forallb_forall in NS. specialize (NS _ I). discriminate. }
    destruct (compiled_fits cf NE g ps C ltac:(now rewrite PG) ltac:(now rewrite PG) f r s v s' D P) as (T & ks & LG & F).
    rewrite PG in *. rewrite L in LG. inversion LG; subst T. clear LG.
    pose proof (result_derives cf NE _ ps C R f r s v s' D P) as X. unfold rule_derives in X.
    inversion X as [| | | | |? ? ? ? gs' u ? ? ? RB DD| | | | | | |]; subst.
    destruct (rule_body_smooth _ _ _ _ RB) as [G' S']; [constructor; auto|].
    assert (U : own_tag u = true).
    { inversion RB as [? ? ? u0 ? L0 A|? ? ? ? ? L0 _]; subst; [|congruence]. rewrite L in L0. inversion L0; subst u0.
      inversion A; subst; auto. discriminate. }
    destruct (tagged _ _ _ _ _ _ _ _ DD S' U NR) as [(z & ->)|(x & cs & ->)].
    - simpl in FP. inversion FP; subst. simpl in Lk. destruct (String.eqb_spec k ""); [contradiction|discriminate].
    - destruct (ast_names _ r t x cs ks SG CG W L F n b g' k c FP Lk NA) as (m & I & S).
      assert (A : forall m, In m ks -> stem m = k -> m = k).
      { intros m' I' Sm. assert (M0 : lits = true -> m' <> "") by (intros _ ->; apply KE; symmetry; exact Sm).
        pose proof (fits_repeating m' lits M0 _ _ _ _ F O I') as J. apply ORD in J. unfold ordinary in J. apply String.eqb_eq in J. congruence. }
      pose proof (A m I S). subst m.
      destruct (tree_called _ ws N E r t L lits O _ _ _ F k I KE NB NTK) as (all & R' & CA & H). exists all, R'. split; auto.
      intros LC. apply H. erewrite recorded_all in LC by eauto. clear - LC A.
      assert (length (filter (fun m => String.eqb (stem m) k) ks) <= count_occ string_dec ks k); [|lia].
      clear LC. induction ks as [|m ks IH]; auto. cbn [filter count_occ].
      assert (IH' := IH (fun y I => A y (or_intror I))). destruct (String.eqb_spec (stem m) k) as [S|S].
      + rewrite (A m (or_introl eq_refl) S). destruct (string_dec k k); [|congruence]. simpl. lia.
      + destruct (string_dec m k); lia.
  Qed.
End Builder.
