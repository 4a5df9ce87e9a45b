(** What the generated getters give on the AST of a tree. *)
From Verif Require Import Base Scanner ScannerSpec ScannerProofs Syntax Engine PegSpec DerivSpec Resolve Compile Parse FlowSpec CutSpec ApiSpec CompileProofs ReorderProofs DerivProofs FordProofs FlowProofs ApiProofs ChainProofs TopProofs
  Ast AstSpec AstProofs AstNodeProofs AstParse AstCount AstConvert AstFits WbnfAst Types PartsSpec PartsProofs Getters GettersSpec.
Local Open Scope string_scope.
Local Open Scope list_scope.

(** * Where parts come from *)

Definition recorded (k : string) (n : anode) : Prop :=
  (k = "@choice" /\ exists i, n = AExtra (DChoice i)) \/ (k = "@empty" /\ exists s, n = AExtra (DString s)).
Definition from_piece (gs : grammars) (sc : list grammar) (ps : list term) (ls : list scanner) (k : string) (n : anode) : Prop :=
  exists u pre v, In u ps /\ incl pre sc /\ level (pre ++ gs) u v [(k, n)] /\ incl (leaves v) ls /\ piece_name u = k.
Definition origins (gs : grammars) (sc : list grammar) (ps : list term) (ls : list scanner) (l : list (string * anode)) : Prop :=
  forall k n, In (k, n) l -> from_piece gs sc ps ls k n \/ recorded k n.

Lemma origins_more : forall gs sc sc' ps ps' ls ls' l, incl sc sc' -> incl ps ps' -> incl ls ls' -> origins gs sc ps ls l -> origins gs sc' ps' ls' l.
Proof.
  intros gs sc sc' ps ps' ls ls' l A B C O k n I. destruct (O k n I) as [(u & pre & v & J & P & L & K & N)|R]; [left|now right].
  exists u, pre, v. split; [now apply B|]. split; [intros g Hg; apply A; now apply P|]. split; auto. split; auto. intros s Hs. apply C. now apply K.
Qed.
Lemma origins_app : forall gs sc ps ls l l', origins gs sc ps ls l -> origins gs sc ps ls l' -> origins gs sc ps ls (l ++ l').
Proof. intros gs sc ps ls l l' A B k n I. apply in_app_or in I as [I|I]; auto. Qed.
Lemma origins_self : forall gs u v k n, pieces u = [u] -> level gs u v [(k, n)] -> piece_name u = k -> origins gs (scopes u) (pieces u) (leaves v) [(k, n)].
Proof.
  intros gs u v k n P L N k' n' [E|[]]. inversion E; subst. left. exists u, [], v. rewrite P. split; [now left|]. split; [intros g []|].
  split; auto. split; auto. now intros s.
Qed.

Ltac within := first [apply incl_refl | apply incl_appl; apply incl_refl | apply incl_appr; apply incl_refl].
Theorem parts_origins :
  (forall gs t v l, level gs t v l -> origins gs (scopes t) (pieces t) (leaves v) l) /\
  (forall gs ts cs l, level_all gs ts cs l -> origins gs (flat_map scopes ts) (flat_map pieces ts) (flat_map leaves cs) l) /\
  (forall gs t cs l, level_many gs t cs l -> origins gs (scopes t) (pieces t) (flat_map leaves cs) l) /\
  (forall i gs t sep cs l, level_turns i gs t sep cs l -> origins gs (scopes t ++ scopes sep) (pieces t ++ pieces sep) (flat_map leaves cs) l).
Proof.
  apply level_mutind.
  - intros gs x s. apply (origins_self gs); auto. constructor.
  - intros gs x s. apply (origins_self gs); auto. constructor.
  - intros gs n t v l b L IH M. apply (origins_self gs); auto. econstructor; eauto.
  - intros gs r gs' t v l b D L IH M. apply (origins_self gs); auto. econstructor; eauto.
  - intros gs i d v n E. apply (origins_self gs); auto. now constructor.
  - intros gs t v l L IH. exact IH.
  - intros gs t g v l L IH k n I. destruct (IH k n I) as [(u & pre & v1 & J & P & Lu & K & N)|R]; [left|now right].
    exists u, (pre ++ [g]), v1. split; auto. split; [|split; [now rewrite <- app_assoc|auto]].
    intros g0 H. simpl. apply in_app_or in H as [H|[->|[]]]; auto.
  - intros gs ts tag cs l L IH. exact IH.
  - intros gs ts tag i t v l N L IH. apply (origins_app _ _ _ _ [_]).
    + intros k n [E|[]]. inversion E; subst. right. left. eauto.
    + eapply origins_more; [| | |exact IH].
      * intros u J. simpl. apply in_flat_map. exists t. split; auto. eapply nth_error_In; eauto.
      * intros u J. simpl. apply in_flat_map. exists t. split; auto. eapply nth_error_In; eauto.
      * simpl. rewrite app_nil_r. apply incl_refl.
  - intros gs t mn mx tag cs l L IH. exact IH.
  - intros gs t tag v l L IH. simpl. rewrite app_nil_r. exact IH.
  - intros gs t sep a cs ce tag items l L IH. exact IH.
  - intros gs k n [].
  - intros gs t ts v cs l l' L IH L' IH'. apply origins_app; (eapply origins_more; [| | |eassumption]); simpl; within.
  - intros gs t k n [].
  - intros gs t v cs l l' L IH L' IH'. apply origins_app; (eapply origins_more; [| | |eassumption]); simpl; within.
  - intros i gs t sep k n [].
  - intros i gs t sep cs l L IH. apply (origins_app _ _ _ _ [_]).
    + intros k n [E|[]]. inversion E; subst. right. right. eauto.
    + eapply origins_more; [| | |exact IH]; [| |apply incl_refl]; intros u J; apply in_app_or in J; apply in_or_app; tauto.
  - intros i gs t sep v cs l l' L IH L' IH'. apply origins_app; (eapply origins_more; [| | |eassumption]); simpl; try within;
      intros u J; apply in_app_or in J; apply in_or_app; tauto.
Qed.

Lemma in_named : forall k n l, In n (named k l) <-> In (k, n) l.
Proof.
  intros k n l. unfold named. rewrite in_map_iff. split.
  - intros ([k' n'] & E & I). simpl in E. subst. apply filter_In in I as [I E]. simpl in E. apply String.eqb_eq in E. now subst.
  - intros I. exists (k, n). split; auto. apply filter_In. split; auto. simpl. apply String.eqb_refl.
Qed.

(** * Reading children *)

Lemma all_made : forall l b, made_of l b -> forall x, all_of (Some (ABranch b)) x = named x l.
Proof.
  intros l b [_ M] x. specialize (M x). unfold all_of, node_one, node_many, get_one, get_many. destruct (lookup x b) as [[n|ns]|]; auto.
  symmetry. apply M.
Qed.
Lemma first_made : forall l b, made_of l b -> forall x, first_of (Some (ABranch b)) x = hd_error (named x l).
Proof.
  intros l b [_ M] x. specialize (M x). unfold first_of, node_one, node_many, get_one, get_many. destruct (lookup x b) as [[n|ns]|].
  - now rewrite M.
  - destruct M as [-> _]. now destruct ns.
  - now rewrite M.
Qed.

Theorem nodes_given : forall l b, made_of l b -> forall x R,
  answers (MAll x (Some R)) (ABranch b) = COk (ANodes (named x l)) /\
  answers (MOne x (Some R)) (ABranch b) = COk (ANode (hd_error (named x l))) /\
  answers (MRef x) (ABranch b) = COk (ANode (hd_error (named x l))).
Proof. intros l b M x R. unfold answers. now rewrite (all_made _ _ M), (first_made _ _ M). Qed.

(** * Tokens *)

Lemma token_level : forall gs u v l, level gs u v l -> is_token u = true -> exists s, v = Leaf s /\ l = [("", ALeaf s)].
Proof. intros gs u v l L. induction L; simpl; intros T; try discriminate; eauto. Qed.

Lemma tokens_spelled : forall gs t v l, level gs t v l -> forall x, tokens_only x t = true -> prefix "@" x = false ->
  forall n, In n (named x l) -> exists s, spells x n s /\ In s (leaves v).
Proof.
  intros gs t v l L x T A n I. apply in_named in I. destruct (proj1 parts_origins _ _ _ _ L x n I) as [(u & pre & v1 & J & PR & Lu & K & N)|[(-> & _)|(-> & _)]]; try discriminate.
  unfold tokens_only in T. rewrite forallb_forall in T. specialize (T u J). rewrite N, String.eqb_refl in T. simpl in T.
  unfold spells. destruct u; simpl in T; try discriminate.
  - inversion Lu; subst. simpl. exists s0. split; auto. apply K. simpl. auto.
  - inversion Lu; subst. simpl. exists s0. split; auto. apply K. simpl. auto.
  - apply andb_prop in T as [T1 T2]. simpl in N. rewrite N in T1, Lu. destruct (String.eqb x "") eqn:E; [discriminate|].
    inversion Lu as [| |? ? ? ? l1 b L1 M1| | | | | | | | |]; subst. destruct (token_level _ _ _ _ L1 T2) as (s & -> & ->).
    exists s. split; [eauto|]. apply K. simpl. auto.
Qed.

Lemma leaf_text : forall s t, shows s t -> node_text (ALeaf s) = COk t.
Proof. intros s t H. unfold node_text. simpl. unfold shows in H. now rewrite H. Qed.

Definition text_reader (x : string) (c : anode) : cres bytes := if String.eqb x "" then node_text c else text_of (first_of (Some c) "").
Lemma spelled_text : forall x n s t, spells x n s -> shows s t -> text_reader x n = COk t.
Proof.
  intros x n s t SP SH. unfold spells, text_reader in *. destruct (String.eqb x ""); [subst; now apply leaf_text|].
  destruct SP as (b & -> & M). rewrite (first_made _ _ M). simpl. now apply leaf_text.
Qed.

(** The texts of the tokens of a name. *)
Theorem texts_given : forall gs t v l, level gs t v l -> (forall s, In s (leaves v) -> exists txt, shows s txt) ->
  forall e b, made_of (e ++ l) b -> (forall k n, In (k, n) e -> prefix "@" k = true) ->
  forall x, tokens_only x t = true -> prefix "@" x = false ->
  exists ss ts, Forall2 (spells x) (named x l) ss /\ incl ss (leaves v) /\ Forall2 shows ss ts /\
    answers (MAll x None) (ABranch b) = COk (ATexts ts) /\
    (x <> "" \/ ts <> [] -> answers (MOne x None) (ABranch b) = COk (AText (hd [] ts))).
Proof.
  intros gs t v l L SH e b M EX x T A. assert (N : named x (e ++ l) = named x l).
  { rewrite named_app. replace (named x e) with (@nil anode); auto. destruct (named x e) as [|n ns] eqn:E; auto.
    assert (I : In n (named x e)) by (rewrite E; now left). apply in_named in I. apply EX in I. congruence. }
  pose proof (tokens_spelled _ _ _ _ L x T A) as SP. unfold answers.
  rewrite (all_made _ _ M), N. unfold one_token, one_named. rewrite !(first_made _ _ M), N.
  assert (X : exists ss ts, Forall2 (spells x) (named x l) ss /\ incl ss (leaves v) /\ Forall2 shows ss ts /\
            texts_of (text_reader x) (named x l) = COk ts /\ match named x l, ts with n :: _, t :: _ => text_reader x n = COk t | [], [] => True | _, _ => False end).
  { revert SP. generalize (named x l). induction l0 as [|n ns IH]; intros SP.
    - exists [], []. repeat split; try constructor. intros s [].
    - destruct (SP n (or_introl eq_refl)) as (s & S1 & S2). destruct (SH s S2) as (txt & S3). destruct IH as (ss & ts & F & I & G & E & _).
      { intros m J. apply SP. now right. }
      exists (s :: ss), (txt :: ts). pose proof (spelled_text _ _ _ _ S1 S3) as R. split; [now constructor|]. split; [intros z [->|Hz]; auto|].
      split; [now constructor|]. cbn [texts_of]. rewrite R. cbn [cbind]. rewrite E. split; auto. }
  destruct X as (ss & ts & F & I & G & E & H). exists ss, ts. split; auto. split; auto. split; auto. split.
  - match goal with |- cbind ?a _ = _ => change a with (texts_of (text_reader x) (named x l)) end. rewrite E. reflexivity.
  - intros C. unfold text_reader in H. destruct (named x l) as [|n ns]; destruct ts as [|txt ts]; try contradiction.
    + destruct C as [C|C]; [|congruence]. apply String.eqb_neq in C. rewrite C. reflexivity.
    + simpl hd. destruct (String.eqb_spec x "") as [->|Q].
      * rewrite N. simpl hd_error. cbv iota. rewrite H. reflexivity.
      * simpl hd_error. cbv iota. rewrite H. reflexivity.
Qed.

(** A rule that is one token. *)
Definition keep (kv : string * children anode) : list (option scanner) :=
  if at_name (fst kv) then []
  else [match snd kv with
        | One n => node_scanner n
        | Many ns => match oseq (map node_scanner ns) with Some l => merge_or_zero l | None => None end
        end].
Lemma scanner_cases : forall b : branch, node_scanner (ABranch b) =
  match b with
  | [(k, One n)] | [(k, Many [n])] =>
      if at_name k then match oseq (flat_map keep b) with Some l => merge_or_zero (filter not_nil l) | None => None end else node_scanner n
  | _ => match oseq (flat_map keep b) with Some l => merge_or_zero (filter not_nil l) | None => None end
  end.
Proof. intros [|[k [n|[|n ns]]] [|y b]]; try reflexivity; destruct ns; reflexivity. Qed.

Theorem token_given : forall s txt, shows s txt -> forall e b, made_of (e ++ [("", ALeaf s)]) b ->
  (forall k n, In (k, n) e -> prefix "@" k = true) -> answers MString (ABranch b) = COk (AText txt).
Proof.
  intros s txt SH e b [ND M] EX. unfold answers.
  assert (E0 : forall k, prefix "@" k = false -> named k e = []).
  { intros k A. destruct (named k e) as [|n ns] eqn:E; auto.
    assert (I : In n (named k e)) by (rewrite E; now left). apply in_named in I. apply EX in I. congruence. }
  assert (T : forall z, sstring z = Some txt -> node_scanner (ABranch b) = Some z -> cbind (node_text (ABranch b)) (fun t => COk (AText t)) = COk (AText txt)).
  { intros z Z E. unfold node_text. rewrite E, Z. reflexivity. }
  assert (KEYS : forall k c, In (k, c) b -> at_name k = true \/ k = "" /\ (c = One (ALeaf s) \/ c = Many [ALeaf s])).
  { intros k c I. destruct (at_name k) eqn:A; auto. right. rewrite at_name_prefix in A. pose proof (In_lookup _ _ _ ND I) as L. specialize (M k).
    rewrite L, named_app, (E0 k A), named_one in M. destruct (String.eqb_spec "" k) as [<-|N]; [|destruct c; [discriminate|destruct M as [M1 M2]; simpl in M1; congruence]].
    split; auto. destruct c; [inversion M; auto|]. destruct M as [M _]. simpl in M. subst. auto. }
  assert (HERE : exists c, In ("", c) b).
  { specialize (M ""). rewrite named_app, (E0 "" eq_refl), named_one in M. destruct (lookup "" b) as [c|] eqn:L; [|discriminate].
    exists c. now apply lookup_In. }
  assert (FLAT : flat_map keep b = [Some s]).
  { clear T M EX E0 SH. destruct HERE as (c & I). apply in_split in I as (b1 & b2 & ->).
    assert (NONE : forall b', (forall k c', In (k, c') b' -> k <> "" /\ In (k, c') (b1 ++ ("", c) :: b2)) -> flat_map keep b' = []).
    { induction b' as [|[k c'] b' IH]; intros H; auto. destruct (H k c' (or_introl eq_refl)) as [N I]. apply KEYS in I as [A|[A _]]; [|congruence].
      cbn [flat_map]. unfold keep at 1. cbn [fst]. rewrite A. apply IH. intros k2 c2 J. apply H. now right. }
    rewrite map_app in ND. simpl in ND. apply NoDup_remove_2 in ND.
    rewrite flat_map_app. cbn [flat_map]. rewrite (NONE b1), (NONE b2).
    - unfold keep. cbn [fst snd at_name]. destruct (KEYS "" c) as [A|[_ [->| ->]]]; [apply in_or_app; right; now left|discriminate|reflexivity|reflexivity].
    - intros k c' J. split; [|apply in_or_app; right; now right]. intros ->. apply ND. apply in_or_app. right. apply in_map_iff. exists ("", c'). auto.
    - intros k c' J. split; [|apply in_or_app; now left]. intros ->. apply ND. apply in_or_app. left. apply in_map_iff. exists ("", c'). auto. }
  assert (WHOLE : exists z, match oseq (flat_map keep b) with Some l => merge_or_zero (filter not_nil l) | None => None end = Some z /\ sstring z = Some txt).
  { rewrite FLAT. simpl. unfold not_nil, is_nil. unfold shows in SH. destruct (src s) eqn:Z; simpl; [eauto|].
    exists zero_scanner. split; auto. unfold sstring in *. rewrite Z in SH. exact SH. }
  destruct WHOLE as (z & W & Z). pose proof (scanner_cases b) as C. clear M ND E0 EX.
  assert (D : node_scanner (ABranch b) = Some z \/ node_scanner (ABranch b) = Some s).
  { rewrite C. destruct b as [|[k [n|[|n ns]]] [|y b]]; auto.
    - destruct (KEYS k _ (or_introl eq_refl)) as [A|[-> [A|A]]]; [rewrite A; auto| |discriminate]. inversion A; subst. right. reflexivity.
    - destruct ns; auto. destruct (KEYS k _ (or_introl eq_refl)) as [A|[-> [A|A]]]; [rewrite A; auto|discriminate|]. inversion A; subst. right. reflexivity.
    - destruct ns; auto. }
  destruct D as [D|D]; [exact (T z Z D)|exact (T s SH D)].
Qed.

(** Choices. *)
Lemma smooth_pieces : forall t, smooth t -> forall u, In u (pieces t) -> smooth u.
Proof.
  induction t using term_ind'; intros S u I; simpl in I; try (destruct I as [<-|[]]; auto); inversion S; subst; auto.
  - apply in_flat_map in I as (x & J & I). rewrite Forall_forall in *. eauto.
  - apply in_flat_map in I as (x & J & I). rewrite Forall_forall in *. eauto.
  - apply in_app_or in I as [I|I]; auto.
Qed.
Theorem choice_given : forall gs t v l, level gs t v l -> smooth t -> forall e b, made_of (e ++ l) b -> (forall k n, In (k, n) e -> k <> "@choice") ->
  exists is, named "@choice" l = map (fun i => AExtra (DChoice i)) is /\
    answers MChoice (ABranch b) = COk (ANumber (match is with i :: _ => Z.of_nat i | [] => (-1)%Z end)).
Proof.
  intros gs t v l L S e b M EX.
  assert (N : named "@choice" (e ++ l) = named "@choice" l).
  { rewrite named_app. replace (named "@choice" e) with (@nil anode); auto. destruct (named "@choice" e) as [|n ns] eqn:E; auto.
    assert (I : In n (named "@choice" e)) by (rewrite E; now left). apply in_named in I. apply EX in I. congruence. }
  assert (X : forall ns, (forall n, In n ns -> In n (named "@choice" l)) -> exists is, ns = map (fun i => AExtra (DChoice i)) is).
  { induction ns as [|n ns IH]; intros H; [now exists []|]. destruct IH as (is & ->); [intros m J; apply H; now right|].
    specialize (H n (or_introl eq_refl)). apply in_named in H.
    destruct (proj1 parts_origins _ _ _ _ L _ n H) as [(u & pre & v1 & J & PR & Lu & K & P)|[(_ & i & ->)|(Q & _)]]; [|exists (i :: is); auto|discriminate].
    exfalso. pose proof (smooth_pieces t S u J) as SU. destruct u; simpl in P; try discriminate; inversion SU; subst; try discriminate.
    apply (stem_not_at r "choice"). auto. }
  destruct (X (named "@choice" l) (fun n I => I)) as (is & E). exists is. split; auto.
  unfold answers, choice_of. rewrite (first_made _ _ M), N, E. destruct is; reflexivity.
Qed.

(** References. *)
Theorem rule_given : forall gs t v l, level gs t v l -> forall x, references_only x t = true -> prefix "@" x = false ->
  forall n, In n (named x l) -> exists pre v1, incl pre (scopes t) /\ level (pre ++ gs) (TRule x) v1 [(x, n)] /\ incl (leaves v1) (leaves v).
Proof.
  intros gs t v l L x T A n I. apply in_named in I. destruct (proj1 parts_origins _ _ _ _ L x n I) as [(u & pre & v1 & J & PR & Lu & K & N)|[(-> & _)|(-> & _)]]; try discriminate.
  unfold references_only in T. rewrite forallb_forall in T. specialize (T u J). rewrite N, String.eqb_refl in T. simpl in T.
  destruct u; simpl in T; try discriminate. apply String.eqb_eq in T. subst. eauto 6.
Qed.

(** A reference gives the node of the rule, unless it has a name. *)
Theorem node_of_rule : forall g t v l, level [g] t v l -> scopes t = [] -> forall x, references_only x t = true -> prefix "@" x = false ->
  forall n, In n (named x l) -> exists u v1 l1 b1, lookup x g = Some u /\ level [g] u v1 l1 /\ made_of l1 b1 /\ n = ABranch b1 /\ incl (leaves v1) (leaves v).
Proof.
  intros g t v l L SC x R A n I. destruct (rule_given _ _ _ _ L x R A n I) as (pre & v1 & PR & Lr & K). rewrite SC in PR.
  assert (pre = []) by (destruct pre as [|g0 pre]; auto; exfalso; apply (PR g0); now left). subst pre. simpl in Lr.
  inversion Lr as [| | |? ? gs' u ? l1 b1 D Lu M| | | | | | | |]; subst. inversion D as [? ? ? ? Lk|? ? ? ? ? Lk D']; subst; [|inversion D'].
  exists u, v1, l1, b1. auto.
Qed.
Theorem named_wraps : forall gs x r v n, level gs (TNamed x (TRule r)) v [(x, n)] ->
  exists b m, n = ABranch b /\ made_of [(stem r, m)] b /\ level gs (TRule r) v [(stem r, m)].
Proof.
  intros gs x r v n L. inversion L as [| |? ? ? ? l b L1 M| | | | | | | | |]; subst. pose proof L1 as L2.
  inversion L1; subst. eauto.
Qed.

(** * What was parsed *)

Lemma compiled_same : forall E g ps, compile E g = COk ps -> readable g -> p_grammar ps = g.
Proof.
  intros E g ps C R. pose proof (compile_resolves _ _ _ C) as RS. rewrite resolve_stacks_fixed in RS; [now inversion RS|].
  intros q ls I. pose proof (proj1 R) as NS. unfold no_stack_grammar in NS. rewrite forallb_forall in NS. specialize (NS _ I). discriminate.
Qed.
Lemma ordered_shows : forall o lo hi ls, ordered o lo hi ls -> forall s, In s ls -> exists txt, shows s txt.
Proof.
  induction 1 as [|lo hi x i n ls W LE O IH]; intros s I; [contradiction|]. destruct I as [<-|I]; auto.
  eexists. unfold shows. eapply window_string; eauto.
Qed.
Definition top_entry (r : string) (v : tree) : list (string * anode) :=
  match v with Leaf _ => [] | _ => [("@rule", AExtra (DRule r))] end.

Section Parsed.
  Variable c : config.
  Hypothesis NE : cf_esc c = None.

  Theorem parsed_texts : forall g ps, compile (cf_eng c) g = COk ps -> readable g -> smooth_grammar g -> coherent g ->
    forall r t, r <> WrapRE -> r <> "" -> lookup r g = Some t -> own_tag t = true ->
    forall f s v s', engine_ok (cf_eng c) -> in_range s -> patterns_grammar (participates (cf_eng c)) g -> no_look_grammar g = true ->
    drawn_ok (cf_rnd c) (draws c f ps r s) -> result (parse_rule c f ps r s) v s' ->
    forall n b g', from_parser_node n g v = COk (b, g') -> forall x, tokens_only x t = true -> prefix "@" x = false ->
    exists l ss ts, level [g] t v l /\ Forall2 (spells x) (named x l) ss /\ incl ss (leaves v) /\ Forall2 shows ss ts /\
      answers (MAll x None) (ABranch b) = COk (ATexts ts) /\
      (x <> "" \/ ts <> [] -> answers (MOne x None) (ABranch b) = COk (AText (hd [] ts))).
  Proof.
    intros g ps C R SG CG r t W NR L OT f s v s' EO IR PG NL D P n b g' FP x T A. pose proof (compiled_same _ _ _ C R) as G.
    destruct (result_ordered c NE g ps C R f r s v s' EO IR PG NL D P) as (o & i & m & j & _ & _ & _ & O).
    rewrite <- G in R, SG, CG, L, FP |- *.
    destruct (parsed_parts c NE g ps C R SG CG r t W NR L OT f s v s' D P n b g' FP) as (l & LV & M).
    exists l. destruct (texts_given _ _ _ _ LV (ordered_shows _ _ _ _ O) (top_entry r v) b) with (x := x) as (ss & ts & H); auto.
    - unfold top_entry. destruct v; exact M.
    - intros k m0 I. unfold top_entry in I. destruct v; simpl in I; intuition; match goal with H : (_, _) = (_, _) |- _ => inversion H; reflexivity end.
    - exists ss, ts. split; auto.
  Qed.
End Parsed.
