(** Parse results fit their grammar; converting them succeeds. *)
From Verif Require Import Base Scanner Syntax Engine Resolve Compile Parse PegSpec DerivSpec FlowSpec CutSpec ApiSpec
  CompileProofs ReorderProofs FordProofs FlowProofs ApiProofs ChainProofs Ast AstSpec AstProofs AstNodeProofs AstParse AstCount AstConvert.

(** * More fuel *)

Lemma each_more : forall B (F G : nat -> tree -> B -> cres B), (forall i c b b', F i c b = COk b' -> G i c b = COk b') ->
  forall cs i b b', each F i cs b = COk b' -> each G i cs b = COk b'.
Proof.
  intros B F G H. induction cs as [|c cs IH]; intros i b b' E; simpl in *; auto.
  apply cbind_inv in E as (b1 & E1 & E2). rewrite (H _ _ _ _ E1). simpl. auto.
Qed.
Lemma from_node_more : forall f ot ctrs e st st', from_node f ot ctrs e st = COk st' -> from_node (S f) ot ctrs e st = COk st'.
Proof.
  induction f as [|f IH]; intros ot ctrs e [b g] st' H; [discriminate|].
  remember (S f) as sf eqn:SF. destruct ot as [t|]; [|rewrite SF in H; discriminate].
  assert (H' := H). rewrite SF in H'.
  destruct t as [r|s|s|i d|s|ts|ts|ts|t sep a cs ce|t|t mn mx|n t|t nested|t]; simpl in H' |- *; try exact H'.
  - inv_bind H'. inversion H'; subst.
    repeat match goal with E : ?x = COk _ |- context [?x] => rewrite E; cbn [cbind] end.
    match goal with E : from_node f _ _ _ _ = COk _ |- _ => apply IH in E; rewrite E end. cbn [cbind].
    match goal with E : badd _ _ _ _ = COk _ |- _ => rewrite E end. reflexivity.
  - destruct e as [tag x cs|s|]; try exact H'. inv_bind H'. inversion H'; subst.
    match goal with E : each _ _ _ _ = COk _ |- _ => eapply each_more in E; [rewrite E|] end.
    + cbn [cbind]. match goal with E : badd _ _ _ _ = COk _ |- _ => rewrite E end. reflexivity.
    + cbv beta. intros. apply IH. auto.
  - destruct e as [tag x cs|s|]; try exact H'. eapply each_more; [|exact H']. cbv beta. intros j c b1 b2 E.
    destruct (nth_error ts j); [|discriminate]. apply IH. auto.
  - destruct e as [tag x cs|s|]; try exact H'. destruct x; try exact H'. inv_bind H'.
    match goal with E : badd_many _ _ _ = COk _ |- _ => rewrite E end. cbn [cbind].
    destruct (nth_error ts c); [|discriminate]. destruct cs; [discriminate|]. apply IH. auto.
  - destruct e as [tag x kids|s|]; try exact H'. destruct x as [| |na|]; try exact H'.
    eapply each_more; [|exact H']. cbv beta. intros j c [b1 g1] b2 E. cbn [fst snd] in *.
    destruct c as [ctag cx cc|s|].
    + destruct (term_same _ _) as [[]|]; [| |discriminate].
      * inv_bind E. repeat match goal with Q : ?x = COk _ |- context [?x] => rewrite Q; cbn [cbind] end.
        match goal with Q : from_node f _ _ _ _ = COk _ |- _ => apply IH in Q; rewrite Q end. cbn [cbind].
        match goal with Q : badd_one _ _ _ = COk _ |- _ => rewrite Q end. exact E.
      * apply IH. auto.
    + destruct (term_same _ _) as [[]|]; [| |discriminate]; apply IH; auto.
    + exact E.
  - destruct e as [tag x cs|s|]; try exact H'. eapply each_more; [|exact H']. cbv beta. intros. apply IH. auto.
  - destruct e as [tag x cs|s|]; try exact H'. eapply each_more; [|exact H']. cbv beta. intros. apply IH. auto.
  - inv_bind H'. inversion H'; subst.
    repeat match goal with E : ?x = COk _ |- context [?x] => rewrite E; cbn [cbind] end.
    match goal with E : from_node f _ _ _ _ = COk _ |- _ => apply IH in E; rewrite E end. cbn [cbind].
    match goal with E : badd _ _ _ _ = COk _ |- _ => rewrite E end. reflexivity.
  - apply IH. auto.
  - apply IH. auto.
Qed.
Lemma from_node_fuel : forall f f' ot ctrs e st st', f <= f' -> from_node f ot ctrs e st = COk st' -> from_node f' ot ctrs e st = COk st'.
Proof. induction 1; auto. intros E. apply from_node_more. auto. Qed.

(** * The top level *)

Definition rules_in (G : grammar) (k : string) : option term := lookup k (all_rules G).
Lemma coherent_inside : forall G, coherent G -> inside (rules_in G) (all_rules G).
Proof.
  intros G C k t I N. unfold rules_in. destruct (lookup k (all_rules G)) as [t'|] eqn:L.
  - apply lookup_In in L. f_equal. eapply C; eauto.
  - exfalso. apply lookup_None in L. apply L. apply in_map_iff. exists (k, t). auto.
Qed.
Lemma top_env : forall G, smooth_grammar G -> coherent G -> env_fine (rules_in G) [G].
Proof. intros G S C. constructor; [|constructor]. split; auto. now apply coherent_inside. Qed.
Lemma top_holds : forall G, holds G [G].
Proof. intros G r gs t D N. inversion D as [? ? ? ? L|? ? ? ? ? L D']; subst; auto. inversion D'. Qed.

Lemma top_level : forall G r t x cs ks, smooth_grammar G -> coherent G -> r <> WrapRE -> lookup r G = Some t ->
  fits [G] t (Node r x cs) ks ->
  exists N cc, new_counters (Some t) = COk cc /\ (forall n, top cc n = hi t n) /\ unmixed_level cc /\
    forall f, N <= f -> exists b g', from_parser_node f G (Node r x cs) = COk (b, g') /\ tracks cc b ks.
Proof.
  intros G r t x cs ks SG CG W L F. pose proof (top_env G SG CG) as EF.
  assert (D : defines [G] r [G] t) by now constructor.
  destruct (defines_in _ _ _ _ _ D EF) as (_ & S & UM & IT & UR).
  destruct (proj1 (fits_converts (rules_in G)) _ _ _ _ F S IT EF) as (N & H).
  destruct (new_counters_top t (smooth_no_stack _ S)) as (cc & E & T). exists N, cc. split; auto. split; auto.
  assert (UL : unmixed_level cc).
  { intros m n M Nn Q. rewrite T in *. apply UM; auto; now apply hi_names. }
  split; auto. intros f Hf.
  destruct (H f Hf cc [("@rule"%string, One (AExtra (DRule r)))] G [] UL (top_holds G)) as (b & g' & E2 & TR & _).
  - intros n. rewrite T. auto.
  - apply tracks_start. intros k c Lk. simpl in Lk. destruct (String.eqb_spec k "@rule"); [auto|discriminate].
  - intros n Sg. apply single_top in Sg. fold (top cc n) in Sg. rewrite T in Sg.
    pose proof (proj1 fits_occ _ _ _ _ F n). simpl. lia.
  - exists b, g'. split; auto. unfold from_parser_node. rewrite L, E. cbn [cbind]. exact E2.
Qed.

(** Trees that fit convert. *)
Theorem fitting_converts : forall G r t v ks, smooth_grammar G -> coherent G -> r <> WrapRE -> lookup r G = Some t ->
  fits [G] t v ks -> (exists s, v = Leaf s) \/ (exists x cs, v = Node r x cs) ->
  exists N, forall f, N <= f -> exists b g', from_parser_node f G v = COk (b, g').
Proof.
  intros G r t v ks SG CG W L F [(s & ->)|(x & cs & ->)].
  - exists 0. intros f _. simpl. eauto.
  - destruct (top_level G r t x cs ks SG CG W L F) as (N & cc & _ & _ & _ & H). exists N. intros f Hf.
    destruct (H f Hf) as (b & g' & E & _). eauto.
Qed.

(** What is recorded as one child occurs at most once in every tree of the rule. *)
Theorem recorded_single : forall G r t x cs ks, smooth_grammar G -> coherent G -> r <> WrapRE -> lookup r G = Some t ->
  fits [G] t (Node r x cs) ks ->
  forall f b g' k n, from_parser_node f G (Node r x cs) = COk (b, g') -> lookup k b = Some (One n) -> k <> "@rule"%string ->
  forall v ks', fits [G] t v ks' -> length (filter (fun m => String.eqb (stem m) k) ks') <= 1.
Proof.
  intros G r t x cs ks SG CG W L F f b g' k n E Lk NR v ks' F'.
  destruct (top_level G r t x cs ks SG CG W L F) as (N & cc & EC & T & UL & H).
  destruct (H (Nat.max N f) ltac:(lia)) as (b2 & g2 & E2 & TR).
  assert (b2 = b /\ g2 = g') as [-> ->].
  { unfold from_parser_node in E, E2. rewrite L, EC in E, E2. cbn [cbind] in E, E2.
    apply (from_node_fuel _ (Nat.max N f)) in E; [|lia]. rewrite E in E2. inversion E2. auto. }
  destruct (tr_only _ _ _ TR _ _ Lk) as [A|(m & I & Em)].
  - replace (filter (fun m => String.eqb (stem m) k) ks') with (@nil string); [simpl; lia|].
    clear - A. induction ks' as [|y l IHl]; auto. simpl. destruct (String.eqb_spec (stem y) k) as [<-|Q]; auto.
    rewrite stem_prefix in A. discriminate.
  - assert (Sg : single (ctr cc m)).
    { destruct (single_dec (ctr cc m)) as [Y|NY]; auto. destruct (tr_many _ _ _ TR m I NY) as (xs & Q & _). rewrite Em, Lk in Q. discriminate. }
    assert (O : occ ks' m <= 1).
    { apply single_top in Sg. fold (top cc m) in Sg. rewrite T in Sg. pose proof (proj1 fits_occ _ _ _ _ F' m). lia. }
    assert (X : forall l, (forall y, In y l -> 0 < top cc y) -> length (filter (fun y => String.eqb (stem y) k) l) = occ l m).
    { intros l P. induction l as [|y l IHl]; auto. cbn [filter]. change (occ (y :: l) m) with (occ ([y] ++ l) m).
      rewrite occ_app, occ_one, <- IHl by (intros z J; apply P; now right).
      destruct (String.eqb_spec (stem y) k) as [Q|Q].
      - rewrite (UL y m); [rewrite String.eqb_refl; reflexivity|apply P; now left|apply (tr_used _ _ _ TR); auto|congruence].
      - destruct (String.eqb_spec m y); [congruence|reflexivity]. }
    rewrite X; auto. intros y J. rewrite T. eapply fits_hi; eauto.
Qed.

(** What is recorded under a name is everything the tree gives to it. *)
Theorem recorded_all : forall G r t x cs ks, smooth_grammar G -> coherent G -> r <> WrapRE -> lookup r G = Some t ->
  fits [G] t (Node r x cs) ks ->
  forall f b g' k, from_parser_node f G (Node r x cs) = COk (b, g') -> prefix "@" k = false ->
  length (children_at k b) = length (filter (fun m => String.eqb (stem m) k) ks).
Proof.
  intros G r t x cs ks SG CG W L F f b g' k E NA.
  destruct (top_level G r t x cs ks SG CG W L F) as (N & cc & EC & T & UL & H).
  destruct (H (Nat.max N f) ltac:(lia)) as (b2 & g2 & E2 & TR).
  assert (b2 = b /\ g2 = g') as [-> ->].
  { unfold from_parser_node in E, E2. rewrite L, EC in E, E2. cbn [cbind] in E, E2.
    apply (from_node_fuel _ (Nat.max N f)) in E; [|lia]. rewrite E in E2. inversion E2. auto. }
  destruct (filter (fun m => String.eqb (stem m) k) ks) as [|m l] eqn:FL.
  - unfold children_at. destruct (lookup k b) as [c|] eqn:Lk; auto.
    destruct (tr_only _ _ _ TR _ _ Lk) as [A|(m & I & Em)]; [congruence|].
    assert (J : In m (filter (fun m => String.eqb (stem m) k) ks)) by (apply filter_In; split; auto; now apply String.eqb_eq).
    rewrite FL in J. contradiction.
  - rewrite <- FL. assert (J : In m (filter (fun m => String.eqb (stem m) k) ks)) by (rewrite FL; now left).
    apply filter_In in J as [I Em]. apply String.eqb_eq in Em.
    assert (X : forall l, (forall y, In y l -> 0 < top cc y) -> length (filter (fun y => String.eqb (stem y) k) l) = occ l m).
    { clear FL l. intros l P. induction l as [|y l IHl]; auto. cbn [filter]. change (occ (y :: l) m) with (occ ([y] ++ l) m).
      rewrite occ_app, occ_one, <- IHl by (intros z J; apply P; now right).
      destruct (String.eqb_spec (stem y) k) as [Q|Q].
      - rewrite (UL y m); [rewrite String.eqb_refl; reflexivity|apply P; now left|apply (tr_used _ _ _ TR); auto|congruence].
      - destruct (String.eqb_spec m y); [congruence|reflexivity]. }
    rewrite X by (intros y J; rewrite T; eapply fits_hi; eauto). unfold children_at.
    destruct (single_dec (ctr cc m)) as [Y|NY].
    + destruct (tr_one _ _ _ TR m I Y) as (y & Q). rewrite Em in Q. rewrite Q. simpl.
      apply single_top in Y. fold (top cc m) in Y. rewrite T in Y. pose proof (proj1 fits_occ _ _ _ _ F m). apply occ_In in I. lia.
    + destruct (tr_many _ _ _ TR m I NY) as (xs & Q & O). rewrite Em in Q. rewrite Q. exact O.
Qed.

(** * What parsing makes *)

Lemma ref_repeating : forall E,
  (forall gs vs r t s v s', derives E gs vs r t s v s' -> forall u, ref_term u t -> repeating v) /\
  (forall gs vs ts s cs s', derives_all E gs vs ts s cs s' -> forall us, Forall2 ref_term us ts -> Forall repeating cs) /\
  (forall gs vs t s cs s', derives_many E gs vs t s cs s' -> True).
Proof.
  intros E. apply derives_mutind; intros; auto;
    try (match goal with H : ref_term _ _ |- _ => inversion H; subst end).
  - match goal with H : token _ _ _ _ |- _ => inversion H; subst; constructor end.
  - constructor. eauto.
  - match goal with H : Forall2 _ _ _ |- _ => inversion H; subst end. eauto.
Qed.

Lemma smooth_delim_seq : forall t sep cs ce, smooth t -> smooth sep -> smooth (delim_seq t sep cs ce).
Proof.
  intros t sep cs ce S1 S2. unfold delim_seq, Opt, Any. constructor. apply Forall_app. split.
  - destruct cs; repeat constructor; auto.
  - constructor; [repeat constructor; auto|]. destruct ce; repeat constructor; auto.
Qed.

Lemma fits_all_app : forall gs a b cs ks, fits_all gs (a ++ b) cs ks ->
  exists c1 c2 k1 k2, cs = c1 ++ c2 /\ ks = k1 ++ k2 /\ fits_all gs a c1 k1 /\ fits_all gs b c2 k2.
Proof.
  induction a as [|t a IH]; intros b cs ks F; simpl in F.
  - exists [], cs, [], ks. repeat split; auto. constructor.
  - inversion F as [|? ? ? v c k k' F1 F2]; subst. apply IH in F2 as (c1 & c2 & k1 & k2 & -> & -> & A & B).
    exists (v :: c1), c2, (k ++ k1), k2. rewrite app_assoc. repeat split; auto. constructor; auto.
Qed.
Lemma fits_all_len : forall gs ts cs ks, fits_all gs ts cs ks -> length cs = length ts.
Proof. induction 1; simpl; auto. Qed.

Lemma turns_pairs : forall gs t sep more pairs, pairs_flat more pairs -> forall ks, fits_many gs (TSeq [sep; t]) more ks ->
  forall trail k2, fits_turns gs sep t trail k2 -> fits_turns gs sep t (pairs ++ trail) (ks ++ k2).
Proof.
  induction 1 as [|p s x ps l (tag & ex & rest & ->) P IH]; intros ks F trail k2 T.
  - inversion F; subst. exact T.
  - inversion F as [|? ? ? ? k k' F1 F2]; subst. inversion F1 as [| | | | | | |? ? ? ? ? FA| | | |]; subst.
    inversion FA as [|? ? ? ? ? ? ? FS FT]; subst. inversion FT as [|? ? ? ? ? ? ? FX FN]; subst. inversion FN; subst.
    simpl. rewrite app_nil_r, <- !app_assoc. constructor; auto. constructor; auto.
Qed.

Lemma opt_turns : forall gs sep c o k (lead : bool), fits gs (Opt sep) c k -> opt_sep (Some c) o lead ->
  (o = [] /\ k = []) \/ exists s, fits gs sep s k /\ o = if lead then [Empty; s] else [s; Empty].
Proof.
  intros gs sep c o k lead F O. inversion F as [| | | | | | | | |? ? ? ? ? ? ? FM L1 L2| |]; subst.
  inversion FM as [|? ? v ? k1 k2 F1 F2]; subst; simpl in O.
  - left. auto.
  - right. destruct L2 as [L2|L2]; [discriminate|]. simpl in L2. destruct cs0 as [|? ?]; [|simpl in L2; lia].
    inversion F2; subst. rewrite app_nil_r. eauto.
Qed.

Lemma delim_fits : forall gs t sep cs ce v ks items, fits gs (delim_seq t sep cs ce) v ks -> delim_items cs ce v items ->
  fits_turns gs t sep items ks.
Proof.
  intros gs t sep cs ce v ks items F
    (tag & ex & cs1 & core & cs2 & lead & trail & first & more & pairs & -> & L & O1 & O2 & NE & (t1 & x1 & t2 & x2 & rr & ->) & P & ->).
  unfold delim_seq in F. inversion F as [| | | | | | |? ? ? ? ? FA| | | |]; subst. clear F.
  apply fits_all_app in FA as (c1 & c2 & k1 & k2 & EC & -> & FA1 & FA2).
  assert (LE : length c1 = length cs1).
  { apply fits_all_len in FA1. rewrite FA1, L. destruct cs; reflexivity. }
  destruct (app_inj_len _ _ _ _ _ (eq_sym EC) LE) as [-> ->]. clear EC LE.
  inversion FA2 as [|? ? ? ? ? kc kt FC FT]; subst. clear FA2.
  inversion FC as [| | | | | | |? ? ? ? ? FCA| | | |]; subst. clear FC.
  inversion FCA as [|? ? ? ? ? kf ? FF FR]; subst. inversion FR as [|? ? ? ? ? km ? FM FN]; subst. inversion FN; subst. clear FCA FR FN.
  inversion FM as [| | | | | | | | |? ? ? ? ? ? ? FMM _ _| |]; subst. clear FM.
  (* the trailing separator *)
  assert (TR : fits_turns gs sep t trail kt).
  { destruct ce; simpl in O2.
    - inversion FT as [|? ? c ? ? ko kn FO FNil]; subst. inversion FNil; subst. simpl in O2. rewrite app_nil_r.
      destruct (opt_turns _ _ _ _ _ false FO O2) as [[-> ->]|(s & Fs & ->)]; [constructor|].
      rewrite <- (app_nil_r ko). constructor; auto. constructor. constructor.
    - inversion FT; subst. constructor. }
  assert (BODY : fits_turns gs t sep (first :: pairs ++ trail) ((kf ++ km ++ []) ++ kt)).
  { rewrite app_nil_r, <- app_assoc. constructor; auto. eapply turns_pairs; eauto. }
  destruct cs; simpl in O1.
  - inversion FA1 as [|? ? c ? ? ko kn FO FNil]; subst. inversion FNil; subst. simpl in O1. rewrite app_nil_r.
    destruct (opt_turns _ _ _ _ _ true FO O1) as [[-> ->]|(s & Fs & ->)]; [exact BODY|].
    simpl. constructor. constructor; auto.
  - inversion FA1; subst. exact BODY.
Qed.

Lemma alias_fits : forall g gs t t', alias_body g t t' -> forall v ks, fits (g :: gs) t' v ks -> exists ks', fits (g :: gs) t v ks'.
Proof.
  induction 1 as [t N|r t t' L A IH]; intros v ks F; eauto.
  destruct (IH v ks F) as (ks' & F'). exists [r]. eapply ft_rule; [constructor; exact L|exact F'].
Qed.
Lemma rule_body_fits : forall gs r gs' t v ks, rule_body gs r gs' t -> fits gs' t v ks -> fits gs (TRule r) v [r].
Proof.
  intros gs r gs' t v ks RB F.
  assert (X : exists t0 ks0, defines gs r gs' t0 /\ fits gs' t0 v ks0).
  { induction RB as [g gs r t t' L A|g gs r gs' t L RB IH].
    - destruct (alias_fits _ gs _ _ A v ks F) as (ks' & F'). exists t, ks'. split; auto. now constructor.
    - destruct (IH F) as (t0 & ks0 & D & F0). exists t0, ks0. split; auto. now constructor. }
  destruct X as (t0 & ks0 & D & F0). eapply ft_rule; eauto.
Qed.
Lemma rule_body_smooth : forall gs r gs' t, rule_body gs r gs' t -> Forall smooth_grammar gs -> Forall smooth_grammar gs' /\ smooth t.
Proof.
  induction 1 as [g gs r t t' L A|g gs r gs' t L RB IH]; intros F; [|inversion F; auto].
  split; auto. inversion F as [|? ? S _]; subst. unfold smooth_grammar in S. rewrite Forall_forall in S.
  assert (LK : forall r u, lookup r g = Some u -> smooth u) by (intros q u Lq; apply lookup_In in Lq; apply (S _ Lq)).
  eapply (alias_body_in smooth); eauto.
Qed.

Theorem derives_fits : forall E,
  (forall gs vs r t s v s', derives E gs vs r t s v s' -> Forall smooth_grammar gs -> smooth t -> exists ks, fits gs t v ks) /\
  (forall gs vs ts s cs s', derives_all E gs vs ts s cs s' -> Forall smooth_grammar gs -> Forall smooth ts -> exists ks, fits_all gs ts cs ks) /\
  (forall gs vs t s cs s', derives_many E gs vs t s cs s' -> Forall smooth_grammar gs -> smooth t -> exists ks, fits_many gs t cs ks).
Proof.
  intros E. apply derives_mutind.
  - intros gs vs r x s pat v s' TP T G S. inversion T; subst; eexists; constructor.
  - intros gs vs r x s pat v s' TP T G S. inversion T; subst; eexists; constructor.
  - intros gs vs r n t s v s' D IH G S. inversion S; subst. destruct IH as (ks & F); auto. eexists. econstructor; eauto.
  - intros gs vs r t s v s' D IH G S. inversion S; subst. destruct IH as (ks & F); auto. eexists. econstructor; eauto.
  - intros gs vs r t g s v s' D IH G S. inversion S; subst. destruct IH as (ks & F); auto. eexists. econstructor; eauto.
  - intros gs vs r x gs' t s v s' RB D IH G S. destruct (rule_body_smooth _ _ _ _ RB G) as [G' S'].
    destruct IH as (ks & F); auto. eexists. eapply rule_body_fits; eauto.
  - intros gs vs r ts s cs s' D IH G S. inversion S; subst. destruct IH as (ks & F); auto. eexists. econstructor; eauto.
  - intros gs vs r ts i t s v s' NE D IH G S. inversion S as [| | | | | |? FS| | | | |]; subst. rewrite Forall_forall in FS.
    destruct IH as (ks & F); auto. { apply FS. eapply nth_error_In; eauto. } eexists. econstructor; eauto.
  - intros gs vs r t mn mx s cs s' D IH L1 L2 G S. inversion S; subst. destruct IH as (ks & F); auto. eexists. econstructor; eauto.
  - intros gs vs r t s v s' D IH G S. inversion S; subst. destruct IH as (ks & F); auto. eexists. econstructor; eauto.
  - intros gs vs r t sep a cs ce s v s' items v' D IH DI DR G S.
    inversion S as [| | | | | | |? ? ? ? S1 S2 ND| | | |]; subst. simpl in DR. subst v'.
    destruct IH as (ks & F); auto using smooth_delim_seq. exists ks. constructor. eapply delim_fits; eauto.
  - intros gs vs r i d s v t v' s' L RT D IH LT G S. eexists. constructor. eapply (proj1 (ref_repeating E)); eauto.
  - intros gs vs r i d s v s' L D IH G S. eexists. constructor. inversion D; subst.
    match goal with H : token _ _ _ _ |- _ => inversion H; subst; constructor end.
  - intros. eexists. constructor.
  - intros gs vs t ts s v s1 cs s' D IH DA IHA G S. inversion S; subst.
    destruct IH as (k & F); auto. destruct IHA as (ks & FA); auto. eexists. econstructor; eauto.
  - intros. eexists. constructor.
  - intros gs vs t s v s1 cs s' D IH DA IHA G S.
    destruct IH as (k & F); auto. destruct IHA as (ks & FA); auto. eexists. econstructor; eauto.
Qed.

Lemma tag_or_own : forall r d, r <> ""%string -> tag_or r d = r.
Proof. intros [|a r] d N; [congruence|reflexivity]. Qed.
Lemma tagged : forall E gs vs r t s v s', derives E gs vs r t s v s' -> smooth t -> own_tag t = true -> r <> ""%string ->
  (exists x, v = Leaf x) \/ (exists x cs, v = Node r x cs).
Proof.
  intros E. assert (G : (forall gs vs r t s v s', derives E gs vs r t s v s' -> smooth t -> own_tag t = true -> r <> ""%string ->
      (exists x, v = Leaf x) \/ (exists x cs, v = Node r x cs)) /\
    (forall gs vs ts s cs s', derives_all E gs vs ts s cs s' -> True) /\
    (forall gs vs t s cs s', derives_many E gs vs t s cs s' -> True)); [|exact (proj1 G)].
  apply derives_mutind; intros; auto; try discriminate; simpl in *;
    try (match goal with T : token _ _ _ _ |- _ => inversion T; subst; eauto; fail end);
    try (rewrite !tag_or_own by assumption; eauto; fail);
    try (match goal with S : smooth _ |- _ => inversion S; subst end; eauto; fail).
  match goal with S : smooth _ |- _ => inversion S; subst end. simpl in *. subst.
  rewrite ?tag_or_own by assumption. eauto.
Qed.

(** * From the text to the AST *)

Lemma compiled_again : forall E g ps, compile E g = COk ps -> no_stack_grammar (p_grammar ps) = true ->
  compile E (p_grammar ps) = COk ps.
Proof.
  intros E g ps C NS. rewrite <- (compile_after E g (p_grammar ps)); auto.
  - eapply compile_resolves; eauto.
  - apply resolve_stacks_fixed. intros r ls I. unfold no_stack_grammar in NS. rewrite forallb_forall in NS.
    specialize (NS _ I). discriminate.
Qed.

Theorem compiled_reads : forall c, cf_esc c = None -> forall g ps, compile (cf_eng c) g = COk ps -> readable (p_grammar ps) ->
  forall f r s v s', drawn_ok (cf_rnd c) (draws c f ps r s) -> result (parse_rule c f ps r s) v s' ->
  forall n b g', from_parser_node n (p_grammar ps) v = COk (b, g') -> reads (ABranch b) (leaves v).
Proof.
  intros c NE g ps C R. apply (parsed_reads c NE (p_grammar ps) ps); auto. eapply compiled_again; eauto. apply R.
Qed.

Theorem compiled_fits : forall c, cf_esc c = None -> forall g ps, compile (cf_eng c) g = COk ps ->
  readable (p_grammar ps) -> smooth_grammar (p_grammar ps) ->
  forall f r s v s', drawn_ok (cf_rnd c) (draws c f ps r s) -> result (parse_rule c f ps r s) v s' ->
  exists t ks, lookup r (p_grammar ps) = Some t /\ fits [p_grammar ps] t v ks.
Proof.
  intros c NE g ps C R SG f r s v s' D P. pose proof (compiled_again _ _ _ C (proj1 R)) as C2.
  pose proof (result_derives c NE _ ps C2 R f r s v s' D P) as X. unfold rule_derives in X.
  inversion X as [| | | | |? ? ? ? gs' u ? ? ? RB DD| | | | | | |]; subst.
  destruct (rule_body_smooth _ _ _ _ RB) as [G' S']; [constructor; auto|].
  destruct (proj1 (derives_fits _) _ _ _ _ _ _ _ DD G' S') as (ks & F).
  pose proof (rule_body_fits _ _ _ _ _ _ RB F) as FR. inversion FR as [| | |? ? ? t ? ks' DF FT| | | | | | | |]; subst.
  inversion DF as [? ? ? ? L|? ? ? ? ? _ Q]; subst; [eauto|inversion Q].
Qed.

Theorem compiled_converts : forall c, cf_esc c = None -> forall g ps, compile (cf_eng c) g = COk ps ->
  readable (p_grammar ps) -> smooth_grammar (p_grammar ps) -> coherent (p_grammar ps) ->
  forall r, r <> WrapRE -> r <> ""%string -> (forall t, rule_body [p_grammar ps] r [p_grammar ps] t -> own_tag t = true) ->
  forall f s v s', drawn_ok (cf_rnd c) (draws c f ps r s) -> result (parse_rule c f ps r s) v s' ->
  exists N, forall n, N <= n -> exists b g', from_parser_node n (p_grammar ps) v = COk (b, g').
Proof.
  intros c NE g ps C R SG CG r W NR OT f s v s' D P.
  destruct (compiled_fits c NE g ps C R SG f r s v s' D P) as (t & ks & L & F).
  eapply fitting_converts; eauto. pose proof (compiled_again _ _ _ C (proj1 R)) as C2.
  pose proof (result_derives c NE _ ps C2 R f r s v s' D P) as X. unfold rule_derives in X.
  inversion X as [| | | | |? ? ? ? gs' u ? ? ? RB DD| | | | | | |]; subst.
  destruct (rule_body_smooth _ _ _ _ RB) as [G' S']; [constructor; auto|].
  eapply tagged; eauto. apply OT. assert (gs' = [p_grammar ps]); [|congruence].
  inversion RB as [|? ? ? ? ? _ Q]; subst; auto. inversion Q.
Qed.

(** * Checking a grammar *)

Definition unmixed_b (t : term) : bool :=
  forallb (fun m => forallb (fun n => negb (String.eqb (stem m) (stem n)) || String.eqb m n) (names_of t)) (names_of t).
Lemma unmixed_b_ok : forall t, unmixed_b t = true -> unmixed t.
Proof.
  intros t H m n M N Q. unfold unmixed_b in H. rewrite forallb_forall in H. specialize (H m M). rewrite forallb_forall in H.
  specialize (H n N). rewrite Q, String.eqb_refl in H. now apply String.eqb_eq.
Qed.
Fixpoint smooth_b (t : term) : bool :=
  match t with
  | TS _ | TRE _ => true
  | TRule r => negb (String.eqb r WrapRE) && (ordinary r || layered r)
  | TREF i _ => ordinary i
  | TNamed n t => ordinary n && unmixed_b t && smooth_b t
  | TSeq ts => forallb smooth_b ts
  | TOneof ts => forallb smooth_b ts
  | TDelim t sep NonAssociative _ _ => smooth_b t && smooth_b sep && negb (is_delim sep)
  | TLookAhead t => smooth_b t
  | TQuant t _ _ => smooth_b t
  | TCut t => smooth_b t
  | TScoped t g => smooth_b t && forallb (fun kv => smooth_b (snd kv) && unmixed_b (snd kv)) g
  | _ => false
  end.
Lemma smooth_b_ok : forall t, smooth_b t = true -> smooth t.
Proof.
  assert (L : forall ts, Forall (fun t => smooth_b t = true -> smooth t) ts -> forallb smooth_b ts = true -> Forall smooth ts).
  { intros ts F H. rewrite forallb_forall in H. rewrite Forall_forall in *. auto. }
  induction t using term_ind'; intros H'; simpl in H'; try discriminate; try (constructor; auto; fail).
  - apply andb_true_iff in H' as [A B]. constructor; [|now apply orb_true_iff].
    destruct (String.eqb_spec r WrapRE); [discriminate|auto].
  - destruct a; try discriminate. apply andb_true_iff in H' as [A B]. apply andb_true_iff in A as [A1 A2].
    constructor; auto. now apply negb_true_iff.
  - apply andb_true_iff in H' as [A B]. apply andb_true_iff in A as [A1 A2]. constructor; auto. now apply unmixed_b_ok.
  - apply andb_true_iff in H' as [A B]. constructor; auto. rewrite forallb_forall in B. rewrite Forall_forall in *.
    intros kv I. specialize (B kv I). apply andb_true_iff in B as [B1 B2]. split; [|now apply unmixed_b_ok]. auto.
Qed.
Definition smooth_grammar_b (g : grammar) : bool := forallb (fun kv => smooth_b (snd kv) && unmixed_b (snd kv)) g.
Lemma smooth_grammar_b_ok : forall g, smooth_grammar_b g = true -> smooth_grammar g.
Proof.
  intros g H. unfold smooth_grammar_b in H. rewrite forallb_forall in H. unfold smooth_grammar. rewrite Forall_forall.
  intros kv I. specialize (H kv I). apply andb_true_iff in H as [A B]. split; [now apply smooth_b_ok|now apply unmixed_b_ok].
Qed.
(** Sufficient: no two rules have the same name. *)
Definition coherent_b (g : grammar) : bool := nodup_b (filter (fun k => negb (String.eqb k WrapRE)) (keys (all_rules g))).
Lemma coherent_b_ok : forall g, coherent_b g = true -> coherent g.
Proof.
  intros g H k t t' I I' N. apply nodup_b_ok in H. revert H I I'. generalize (all_rules g). intros l H I I'.
  assert (P : negb (String.eqb k WrapRE) = true) by (destruct (String.eqb_spec k WrapRE); auto).
  induction l as [|[a u] l IH]; [contradiction|].
  assert (M : forall u', In (k, u') l -> In k (filter (fun k => negb (String.eqb k WrapRE)) (keys l))).
  { intros u' J. apply filter_In. split; auto. unfold keys. apply in_map_iff. exists (k, u'). auto. }
  simpl in H. destruct I as [Q|I], I' as [Q'|I'].
  - congruence.
  - inversion Q; subst. rewrite P in H. inversion H; subst. exfalso. eauto.
  - inversion Q'; subst. rewrite P in H. inversion H; subst. exfalso. eauto.
  - apply IH; auto. destruct (negb (String.eqb a WrapRE)); [inversion H|]; auto.
Qed.
