(** Turning the AST of a tree back gives the tree. *)
From Verif Require Import Base Scanner Syntax Engine Resolve Compile Parse PegSpec DerivSpec FlowSpec CutSpec ApiSpec
  CompileProofs ReorderProofs FordProofs FlowProofs ApiProofs ChainProofs Ast AstSpec AstProofs AstNodeProofs AstParse AstCount AstConvert AstFits.

(** * Branches as queues *)

Definition content (b : branch) (k : string) : list anode :=
  match lookup k b with None => [] | Some (One n) => [n] | Some (Many ns) => ns end.
Definition event : Type := string * anode.
Definition pick (k : string) (evs : list event) : list anode :=
  map snd (filter (fun e : event => String.eqb (fst e) k) evs).
Lemma pick_app : forall k a b, pick k (a ++ b) = pick k a ++ pick k b.
Proof. intros. unfold pick. now rewrite filter_app, map_app. Qed.
Lemma pick_one : forall k k' x, pick k [(k', x)] = if String.eqb k' k then [x] else [].
Proof. intros. unfold pick. simpl. destruct (String.eqb k' k); reflexivity. Qed.
Lemma pick_keys : forall k evs, pick k evs <> [] -> exists x, In (k, x) evs.
Proof.
  intros k evs. unfold pick. induction evs as [|[k' x] evs IH]; simpl; [congruence|]. destruct (String.eqb_spec k' k) as [->|N].
  - intros _. exists x. now left.
  - intros H. destruct (IH H) as (y & I). exists y. now right.
Qed.

Lemma lookup_adel_eq : forall A k (l : list (string * A)), lookup k (adel k l) = None.
Proof.
  induction l as [|[k' v] l IH]; simpl; auto. destruct (String.eqb k k') eqn:E; auto. simpl. now rewrite E.
Qed.
Lemma lookup_adel_neq : forall A k k2 (l : list (string * A)), k <> k2 -> lookup k2 (adel k l) = lookup k2 l.
Proof.
  induction l as [|[k' v] l IH]; simpl; intros N; auto. destruct (String.eqb_spec k k') as [->|Q]; simpl.
  - destruct (String.eqb_spec k2 k'); [congruence|auto].
  - destruct (String.eqb k2 k'); auto.
Qed.

(** One child where the counters say one, a list where they say many. *)
Definition kinded (ctrs : counters) (b : branch) : Prop :=
  (forall n, 0 < top ctrs n -> match lookup (stem n) b with
                               | None => True
                               | Some (One _) => single (ctr ctrs n)
                               | Some (Many _) => ~ single (ctr ctrs n)
                               end) /\ listed "@choice" b.

Lemma kinded_nil : forall ctrs, kinded ctrs [].
Proof. intros. split; [intros; exact I|exact I]. Qed.
Lemma choice_no_stem : forall n, "@choice"%string <> stem n.
Proof. intros n E. symmetry in E. exact (stem_not_at _ _ E). Qed.

Lemma pull_none : forall ctrs n b, 0 < top ctrs n -> kinded ctrs b -> content b (stem n) = [] ->
  pull (stem n) (ctr ctrs n) b = COk (None, b).
Proof.
  intros ctrs n b P [K _] C. specialize (K n P). unfold content in C. unfold pull, pull_one, pull_many.
  unfold top in P. destruct (ctr ctrs n) as [l h]. simpl in P.
  destruct (lookup (stem n) b) as [[y|ys]|]; [discriminate| |].
  - subst ys. destruct l as [|[|l]], h as [|[|h]]; try lia; auto; exfalso; apply K; unfold single, zeroOrOne, oneOne; auto.
  - destruct l as [|[|l]], h as [|[|h]]; try lia; auto.
Qed.
Lemma pull_many_choice_none : forall ctrs b, kinded ctrs b -> content b "@choice" = [] -> pull_many "@choice" b = COk (None, b).
Proof.
  intros ctrs b [_ L] C. unfold listed in L. unfold content in C. unfold pull_many.
  destruct (lookup "@choice" b) as [[y|ys]|]; [contradiction|subst ys; auto|auto].
Qed.

Lemma pull_many_spec : forall k b x l xs, lookup k b = Some (Many xs) -> xs = x :: l ->
  exists b', pull_many k b = COk (Some x, b') /\ content b' k = l /\
    (lookup k b' = None \/ exists ys, lookup k b' = Some (Many ys)) /\ forall k', k' <> k -> lookup k' b' = lookup k' b.
Proof.
  intros k b x l xs L ->. unfold pull_many. rewrite L. destruct l as [|y l]; eexists; (split; [reflexivity|]); unfold content.
  - rewrite lookup_adel_eq. split; auto. split; auto. intros k' N. apply lookup_adel_neq. congruence.
  - rewrite lookup_aset_eq. split; auto. split; eauto. intros k' N. apply lookup_aset_neq. congruence.
Qed.

Lemma kinded_change : forall ctrs b b' k, kinded ctrs b -> (forall k', k' <> k -> lookup k' b' = lookup k' b) ->
  (forall n, stem n = k -> 0 < top ctrs n -> match lookup k b' with
                               | None => True
                               | Some (One _) => single (ctr ctrs n)
                               | Some (Many _) => ~ single (ctr ctrs n)
                               end) -> (k = "@choice"%string -> listed k b') -> kinded ctrs b'.
Proof.
  intros ctrs b b' k [K L] O S C. split.
  - intros n P. destruct (string_dec (stem n) k) as [E|N].
    + rewrite E. apply S; auto.
    + rewrite O by auto. exact (K n P).
  - destruct (string_dec "@choice" k) as [<-|N]; auto. unfold listed in *. rewrite O by auto. exact L.
Qed.

Lemma pull_some : forall ctrs n b x l, unmixed_level ctrs -> 0 < top ctrs n -> kinded ctrs b -> content b (stem n) = x :: l ->
  exists b', pull (stem n) (ctr ctrs n) b = COk (Some x, b') /\ kinded ctrs b' /\ content b' (stem n) = l /\
    forall k, k <> stem n -> content b' k = content b k.
Proof.
  intros ctrs n b x l UL P K C. pose proof (proj1 K n P) as Kn. unfold content in C.
  destruct (lookup (stem n) b) as [[y|ys]|] eqn:E; [| |discriminate].
  - inversion C; subst. exists (adel (stem n) b).
    assert (PU : pull (stem n) (ctr ctrs n) b = pull_one (stem n) b) by (destruct Kn as [->| ->]; reflexivity).
    rewrite PU. unfold pull_one. rewrite E. split; auto. split; [|split].
    + apply (kinded_change ctrs b _ (stem n)); auto.
      * intros k' N. apply lookup_adel_neq. congruence.
      * intros m Em Pm. now rewrite lookup_adel_eq.
      * intros Q. exfalso. eapply choice_no_stem; eauto.
    + unfold content. now rewrite lookup_adel_eq.
    + intros k N. unfold content. rewrite lookup_adel_neq by congruence. reflexivity.
  - destruct (pull_many_spec _ _ _ _ _ E C) as (b' & PM & CB & S & O). exists b'.
    assert (PU : pull (stem n) (ctr ctrs n) b = pull_many (stem n) b).
    { unfold top in P. destruct (ctr ctrs n) as [lo h]. simpl in P.
      destruct lo as [|[|lo]], h as [|[|h]]; try lia; auto; exfalso; apply Kn; unfold single, zeroOrOne, oneOne; auto. }
    rewrite PU. split; auto. split; [|split; auto].
    + apply (kinded_change ctrs b _ (stem n)); auto.
      * intros m Em Pm. assert (m = n) by (apply UL; auto). subst m. destruct S as [->|(zs & ->)]; auto.
      * intros Q. exfalso. eapply choice_no_stem; eauto.
    + intros k N. unfold content. rewrite O by auto. reflexivity.
Qed.

(** * Adding *)

Lemma badd_queue : forall ctrs n x b b', unmixed_level ctrs -> 0 < top ctrs n -> kinded ctrs b ->
  badd (stem n) x (ctr ctrs n) b = COk b' ->
  kinded ctrs b' /\ (forall k, content b' k = content b k ++ pick k [(stem n, x)]) /\ (forall k, k <> stem n -> lookup k b' = lookup k b).
Proof.
  intros ctrs n x b b' UL P K H.
  assert (X : exists c, b' = aset (stem n) c b /\ (match c with One _ => single (ctr ctrs n) | Many _ => ~ single (ctr ctrs n) end) /\
              (match c with One y => [y] | Many ys => ys end) = content b (stem n) ++ [x]).
  { unfold content. destruct (single_dec (ctr ctrs n)) as [S|N].
    - rewrite badd_single in H by auto. unfold badd_one in H. destruct (lookup (stem n) b); [discriminate|].
      inversion H. eexists. split; [reflexivity|]. auto.
    - rewrite badd_multi in H by auto. unfold badd_many in H. destruct (lookup (stem n) b) as [[y|ys]|]; [discriminate| |];
        inversion H; eexists; (split; [reflexivity|]); auto. }
  destruct X as (c & -> & S & C). split; [|split].
  - apply (kinded_change ctrs b _ (stem n)); auto.
    + intros k' N. apply lookup_aset_neq. congruence.
    + intros m Em Pm. rewrite lookup_aset_eq. assert (m = n) by (apply UL; auto). subst m. exact S.
    + intros Q. exfalso. eapply choice_no_stem; eauto.
  - intros k. rewrite pick_one. unfold content at 1. destruct (String.eqb_spec (stem n) k) as [<-|N].
    + rewrite lookup_aset_eq. exact C.
    + rewrite lookup_aset_neq by auto. now rewrite app_nil_r.
  - intros k N. apply lookup_aset_neq. congruence.
Qed.
Lemma badd_choice : forall ctrs x b b', kinded ctrs b -> badd_many "@choice" x b = COk b' ->
  kinded ctrs b' /\ (forall k, content b' k = content b k ++ pick k [("@choice"%string, x)]) /\
  (forall k, k <> "@choice"%string -> lookup k b' = lookup k b).
Proof.
  intros ctrs x b b' K H. unfold badd_many in H.
  assert (X : exists ys, b' = aset "@choice" (Many ys) b /\ ys = content b "@choice" ++ [x]).
  { unfold content. destruct (lookup "@choice" b) as [[y|ys]|]; [discriminate| |]; inversion H; eauto. }
  destruct X as (ys & -> & C). split; [|split].
  - apply (kinded_change ctrs b _ "@choice"); auto.
    + intros k' N. apply lookup_aset_neq. congruence.
    + intros m Em. symmetry in Em. exfalso. eapply choice_no_stem; eauto.
    + intros _. unfold listed. rewrite lookup_aset_eq. exact I.
  - intros k. rewrite pick_one. unfold content at 1. destruct (String.eqb_spec "@choice" k) as [<-|N].
    + rewrite lookup_aset_eq. exact C.
    + rewrite lookup_aset_neq by auto. now rewrite app_nil_r.
  - intros k N. apply lookup_aset_neq. congruence.
Qed.

(** * When a repetition stops *)

Lemma guard_absent : forall g t k, guard t = Some k -> smooth t ->
  exists N, forall m, N <= m -> forall ctrs b, counted ctrs t -> kinded ctrs b -> content b k = [] ->
  to_node m (Some t) ctrs (b, g) = COk (ONil, (b, g)).
Proof.
  intros g. induction t using term_ind'; intros k GU S; simpl in GU; try discriminate.
  - inversion GU; subst. inversion S as [| |? W OL| | | | | | | | |]; subst. exists 1. intros m Hm ctrs b C K E.
    destruct m as [|m]; [lia|]. cbn [to_node]. destruct (unlevel_stem r g OL) as (z & ->). cbn [cbind fst].
    rewrite pull_none; auto. specialize (C r). simpl in C. rewrite String.eqb_refl in C. lia.
  - inversion GU; subst. exists 1. intros m Hm ctrs b C K E. destruct m as [|m]; [lia|]. cbn [to_node].
    change ""%string with (stem "") at 1. rewrite pull_none; auto. specialize (C ""%string). simpl in C. lia.
  - inversion GU; subst. exists 1. intros m Hm ctrs b C K E. destruct m as [|m]; [lia|]. cbn [to_node].
    change ""%string with (stem "") at 1. rewrite pull_none; auto. specialize (C ""%string). simpl in C. lia.
  - destruct ts as [|t ts]; [discriminate|]. inversion H as [|? ? H1 _]; subst. inversion S as [| | | | |? FS| | | | | |]; subst.
    inversion FS; subst. destruct (H1 k GU) as (N & HN); auto. exists (Datatypes.S N). intros m Hm ctrs b C K E.
    destruct m as [|m]; [lia|]. cbn [to_node to_seq]. rewrite (HN m ltac:(lia) ctrs b); auto.
    intros n. specialize (C n). simpl in C. lia.
  - inversion GU; subst. exists 1. intros m Hm ctrs b C K E. destruct m as [|m]; [lia|]. cbn [to_node].
    rewrite (pull_many_choice_none ctrs); auto.
  - inversion GU; subst. inversion S as [| | | |? ? ON UM ST| | | | | | |]; subst. exists 1. intros m Hm ctrs b C K E.
    destruct m as [|m]; [lia|]. cbn [to_node]. destruct (new_counters_top t (smooth_no_stack _ ST)) as (cc & -> & _). cbn [cbind].
    apply String.eqb_eq in ON. rewrite <- ON in E |- *. rewrite ON at 2. rewrite pull_none; auto.
    specialize (C k). simpl in C. rewrite String.eqb_refl in C. lia.
  - inversion S; subst. destruct (IHt k GU) as (N & HN); auto. exists (Datatypes.S N). intros m Hm ctrs b C K E.
    destruct m as [|m]; [lia|]. cbn [to_node]. apply HN; auto. lia.
Qed.

(** * There and back *)

(** Rewriting up to the names of types. *)
Ltac use_back E :=
  match type of E with ?l = ?r =>
    match l with
    | to_node ?f _ _ _ => match goal with |- context [to_node f ?o ?c ?s] => replace (to_node f o c s) with r by (symmetry; exact E) end
    | to_seq _ _ _ _ => match goal with |- context [to_seq ?f ?o ?c ?s] => replace (to_seq f o c s) with r by (symmetry; exact E) end
    | to_quant _ _ _ _ _ _ _ _ => match goal with |- context [to_quant ?a ?b ?c ?d ?e ?f ?x ?y] => replace (to_quant a b c d e f x y) with r by (symmetry; exact E) end
    | to_delim _ _ _ _ _ _ _ => match goal with |- context [to_delim ?b ?c ?d ?e ?f ?x ?y] => replace (to_delim b c d e f x y) with r by (symmetry; exact E) end
    end
  end.

Section Back.
  Variable g : grammar.
  Hypothesis SG : smooth_grammar g.
  Hypothesis RG : regained g.

  Definition match_tag (r : string) (t : term) (w : otree) (v : tree) : Prop :=
    if own_tag t && negb (String.eqb r "") then relabel r w = otree_of v else w = otree_of v.
  Lemma match_tag_node : forall r t d x cs, own_tag t = true ->
    match_tag r t (ONode d x (map otree_of cs)) (Node (tag_or r d) x cs).
  Proof.
    intros r t d x cs O. unfold match_tag, tag_or. rewrite O. destruct (String.eqb r ""); reflexivity.
  Qed.
  Lemma match_tag_part : forall t w v, match_tag "" t w v -> w = otree_of v.
  Proof. intros t w v M. unfold match_tag in M. rewrite andb_false_r in M. exact M. Qed.

  (** What a run adds to a branch. *)
  Record ran (ctrs : counters) (b b' : branch) (evs : list event) (ks : list string) : Prop := {
    rn_kinded : kinded ctrs b';
    rn_content : forall k, content b' k = content b k ++ pick k evs;
    rn_other : forall k, ~ In k ks -> lookup k b' = lookup k b;
    rn_keys : forall e, In e evs -> In (fst e) ks }.
  Lemma ran_nil : forall ctrs b ks, kinded ctrs b -> ran ctrs b b [] ks.
  Proof. intros. constructor; auto; [intros k; unfold pick; simpl; now rewrite app_nil_r|intros e []]. Qed.
  Lemma ran_app : forall ctrs a b c e1 e2 k1 k2, ran ctrs a b e1 k1 -> ran ctrs b c e2 k2 -> ran ctrs a c (e1 ++ e2) (k1 ++ k2).
  Proof.
    intros ctrs a b c e1 e2 k1 k2 A B. constructor.
    - apply B.
    - intros k. rewrite (rn_content _ _ _ _ _ B), (rn_content _ _ _ _ _ A), pick_app, app_assoc. reflexivity.
    - intros k N. rewrite (rn_other _ _ _ _ _ B), (rn_other _ _ _ _ _ A); auto; intros I; apply N; apply in_or_app; auto.
    - intros e I. apply in_app_or in I as [I|I]; apply in_or_app; [left; apply (rn_keys _ _ _ _ _ A e I)|right; apply (rn_keys _ _ _ _ _ B e I)].
  Qed.
  Lemma ran_weaken : forall ctrs b b' evs ks ks', ran ctrs b b' evs ks -> (forall k, In k ks -> In k ks') -> ran ctrs b b' evs ks'.
  Proof. intros ctrs b b' evs ks ks' R I. destruct R as [A B C D]. constructor; auto. Qed.

  Definition confined (rest : string -> list anode) (a : list string) : Prop := forall k, rest k <> [] -> In k a.
  Lemma confined_more : forall evs ks rest a, (forall e : event, In e evs -> In (fst e) ks) -> confined rest a ->
    confined (fun k => pick k evs ++ rest k) (ks ++ a).
  Proof.
    intros evs ks rest a K C k H. apply in_or_app. destruct (pick k evs) as [|x l] eqn:P.
    - right. apply C. exact H.
    - left. destruct (pick_keys k evs) as (y & I); [congruence|]. exact (K _ I).
  Qed.

  (** What the way back does with it. *)
  Definition returns (N : nat) (ctrs : counters) (t : term) (r : string) (v : tree) (evs : list event) (a : list string) : Prop :=
    forall m, N <= m -> forall b rest, kinded ctrs b -> (forall k, content b k = pick k evs ++ rest k) -> confined rest a ->
    exists w b', to_node m (Some t) ctrs (b, g) = COk (w, (b', g)) /\ is_onil w = false /\ match_tag r t w v /\
      kinded ctrs b' /\ forall k, content b' k = rest k.

  Lemma relabel_nil : forall r w, is_onil (relabel r w) = is_onil w.
  Proof. intros r []; reflexivity. Qed.
  Lemma nil_otree : forall v, is_onil (otree_of v) = match v with Empty => true | _ => false end.
  Proof. intros []; reflexivity. Qed.
  Lemma shaped_not_empty : forall r t v, shaped g r t v -> v <> Empty.
  Proof. induction 1; try discriminate; auto. Qed.

  Lemma pull_event : forall ctrs n b x evs rest, unmixed_level ctrs -> 0 < top ctrs n -> kinded ctrs b ->
    (forall k, content b k = pick k ((stem n, x) :: evs) ++ rest k) ->
    exists b', pull (stem n) (ctr ctrs n) b = COk (Some x, b') /\ kinded ctrs b' /\ forall k, content b' k = pick k evs ++ rest k.
  Proof.
    intros ctrs n b x evs rest UL P K C.
    destruct (pull_some ctrs n b x (pick (stem n) evs ++ rest (stem n)) UL P K) as (b' & E & K' & C1 & C2).
    { rewrite C. unfold pick. simpl. rewrite String.eqb_refl. reflexivity. }
    exists b'. split; auto. split; auto. intros k. destruct (string_dec k (stem n)) as [->|N]; auto.
    rewrite C2, C by auto. unfold pick. simpl. destruct (String.eqb_spec (stem n) k); [congruence|reflexivity].
  Qed.

  Lemma level_fine : forall t, smooth t -> unmixed t -> exists cc, new_counters (Some t) = COk cc /\ unmixed_level cc /\ counted cc t.
  Proof.
    intros t S UM. destruct (new_counters_top t (smooth_no_stack _ S)) as (cc & E & T). exists cc. split; auto. split.
    - intros m n M N Q. rewrite T in *. apply UM; auto; now apply hi_names.
    - intros n. rewrite T. auto.
  Qed.

  Definition goes (t : term) (r : string) (v : tree) : Prop :=
    forall f ctrs b b' g', unmixed_level ctrs -> counted ctrs t -> kinded ctrs b ->
    from_node f (Some t) ctrs v (b, g) = COk (b', g') ->
    g' = g /\ exists evs N, ran ctrs b b' evs (keys_of t) /\ forall a, regains g a t -> returns N ctrs t r v evs a.

  (** The level of a rule or named term. *)
  Lemma level_goes : forall t r v, goes t r v -> smooth t -> unmixed t -> forall f b2 g2 cc, new_counters (Some t) = COk cc ->
    from_node f (Some t) cc v ([], g) = COk (b2, g2) ->
    g2 = g /\ exists N, regains g [] t -> forall m, N <= m ->
      exists w b3, to_node m (Some t) cc (b2, g) = COk (w, (b3, g)) /\ is_onil w = false /\ match_tag r t w v.
  Proof.
    intros t r v G S UM f b2 g2 cc NC H. destruct (level_fine t S UM) as (cc' & NC' & UL & C).
    assert (cc' = cc) by congruence. subst cc'.
    destruct (G f cc [] b2 g2 UL C (kinded_nil cc) H) as (-> & evs & N & R & B). split; auto. exists N. intros RT m Hm.
    destruct (B [] RT m Hm b2 (fun _ => [])) as (w & b3 & E & NW & MT & _ & _); eauto.
    - apply R.
    - intros k. rewrite (rn_content _ _ _ _ _ R), app_nil_r. reflexivity.
    - intros k Q. congruence.
  Qed.

  Lemma list_step_item : forall f T S ctrs tag i child st, is_delim S = false -> child <> Empty -> Nat.odd i = false ->
    list_step f T S (TDelim T S NonAssociative false false) tag ctrs i child st = from_node f (Some T) ctrs child st.
  Proof.
    intros f T S ctrs tag i child st D NE O. unfold list_step, lr_term. rewrite O.
    rewrite term_same_item. destruct child; auto; congruence.
  Qed.
  Lemma list_step_sep : forall f T S ctrs tag i child st, is_delim S = false -> child <> Empty -> Nat.odd i = true ->
    list_step f T S (TDelim T S NonAssociative false false) tag ctrs i child st = from_node f (Some S) ctrs child st.
  Proof.
    intros f T S ctrs tag i child st D NE O. unfold list_step, lr_term. rewrite O.
    rewrite term_same_sep by auto. destruct child; auto; congruence.
  Qed.

  Theorem shaped_goes :
    (forall r t v, shaped g r t v -> smooth t -> goes t r v) /\
    (forall ts cs, shaped_all g ts cs -> Forall smooth ts -> forall f pre ctrs b b' g', unmixed_level ctrs ->
       Forall (counted ctrs) ts -> kinded ctrs b ->
       each (fun i c st => match nth_error (pre ++ ts) i with
                           | Some t => from_node f (Some t) ctrs c st
                           | None => CPanic
                           end) (length pre) cs (b, g) = COk (b', g') ->
       g' = g /\ exists evs N, ran ctrs b b' evs (flat_map keys_of ts) /\
       forall a, regains g a (TSeq ts) -> forall m, N <= m -> forall b rest acc, kinded ctrs b ->
         (forall k, content b k = pick k evs ++ rest k) -> confined rest a ->
         exists b', to_seq (fun t st => to_node m (Some t) ctrs st) ts acc (b, g)
                    = COk (ONode seqTag XNone (acc ++ map otree_of cs), (b', g)) /\
           kinded ctrs b' /\ forall k, content b' k = rest k) /\
    (forall t cs, shaped_many g t cs -> smooth t -> forall f ctrs i b b' g', unmixed_level ctrs -> counted ctrs t -> kinded ctrs b ->
       each (fun _ c st => from_node f (Some t) ctrs c st) i cs (b, g) = COk (b', g') ->
       g' = g /\ exists evs N, ran ctrs b b' evs (keys_of t) /\ (cs = [] -> evs = []) /\
       forall a key mn mx, guard t = Some key -> ~ In key a -> regains g ((if Nat.eqb mx 1 then [] else keys_of t) ++ a) t ->
         forall m, N <= m -> forall n, length cs < n -> forall b rest acc, kinded ctrs b ->
         mn <= length acc + length cs -> (mx = 0 \/ length acc + length cs <= mx) ->
         (forall k, content b k = pick k evs ++ rest k) -> confined rest a ->
         exists b', to_quant (fun t st => to_node m (Some t) ctrs st) n t mn mx (length acc) acc (b, g)
                    = COk (ONode quantTag XNone (acc ++ map otree_of cs), (b', g)) /\
           kinded ctrs b' /\ forall k, content b' k = rest k) /\
    (forall t sep cs, shaped_pairs g t sep cs -> smooth t -> smooth sep -> is_delim sep = false ->
       forall f ctrs i tag b b' g', unmixed_level ctrs -> counted ctrs t -> counted ctrs sep -> kinded ctrs b -> Nat.odd i = true ->
       each (list_step f t sep (TDelim t sep NonAssociative false false) tag ctrs) i cs (b, g) = COk (b', g') ->
       g' = g /\ exists evs N, ran ctrs b b' evs (keys_of t ++ keys_of sep) /\
       forall a key, guard sep = Some key -> ~ In key a -> regains g (keys_of t ++ keys_of sep ++ a) t ->
         regains g (keys_of t ++ keys_of sep ++ a) sep ->
         forall m, N <= m -> forall n, length cs < n -> forall j b rest acc, kinded ctrs b -> Nat.odd j = true ->
         (forall k, content b k = pick k evs ++ rest k) -> confined rest a ->
         exists b', to_delim (fun t st => to_node m (Some t) ctrs st) n t sep j acc (b, g)
                    = COk (ONode delimTag (XAssoc NonAssociative) (acc ++ map otree_of cs), (b', g)) /\
           kinded ctrs b' /\ forall k, content b' k = rest k).
  Proof.
    apply shaped_mutind.
    - (* literal *)
      intros r x s _ f ctrs b b' g' UL C K H. destruct f as [|f]; [discriminate|]. cbn [from_node] in H.
      apply cbind_inv in H as (b1 & H & E). inversion E; subst.
      assert (P : 0 < top ctrs "") by (specialize (C ""%string); simpl in C; lia).
      destruct (badd_queue ctrs "" (ALeaf s) b b' UL P K H) as (K' & CT & O). split; auto.
      exists [(""%string, ALeaf s)], 1. split; [constructor; auto|].
      { intros k N. apply O. intros Q. apply N. left. simpl in Q. auto. }
      { intros e [<-|[]]. now left. }
      intros a _ m Hm b2 rest K2 C2 CF. destruct m as [|m]; [lia|]. cbn [to_node].
      destruct (pull_event ctrs "" b2 (ALeaf s) [] rest UL P K2 C2) as (b3 & E3 & K3 & C3).
      simpl stem in E3. rewrite E3. cbn [cbind]. exists (OLeaf s), b3. repeat split; auto; try apply K3.
      unfold match_tag. destruct (_ && _); reflexivity.
    - intros r x s _ f ctrs b b' g' UL C K H. destruct f as [|f]; [discriminate|]. cbn [from_node] in H.
      apply cbind_inv in H as (b1 & H & E). inversion E; subst.
      assert (P : 0 < top ctrs "") by (specialize (C ""%string); simpl in C; lia).
      destruct (badd_queue ctrs "" (ALeaf s) b b' UL P K H) as (K' & CT & O). split; auto.
      exists [(""%string, ALeaf s)], 1. split; [constructor; auto|].
      { intros k N. apply O. intros Q. apply N. left. simpl in Q. auto. }
      { intros e [<-|[]]. now left. }
      intros a _ m Hm b2 rest K2 C2 CF. destruct m as [|m]; [lia|]. cbn [to_node].
      destruct (pull_event ctrs "" b2 (ALeaf s) [] rest UL P K2 C2) as (b3 & E3 & K3 & C3).
      simpl stem in E3. rewrite E3. cbn [cbind]. exists (OLeaf s), b3. repeat split; auto; try apply K3.
      unfold match_tag. destruct (_ && _); reflexivity.
    - (* named *)
      intros r n t v SH IH S f ctrs b b' g' UL C K H. inversion S as [| | | |? ? ON UM ST| | | | | | |]; subst.
      destruct f as [|f]; [discriminate|]. cbn [from_node] in H. apply cbind_inv in H as (cc & NC & H).
      apply cbind_inv in H as ([b2 g2] & HN & H). apply cbind_inv in H as (b1 & HB & E). inversion E; subst.
      destruct (level_goes t n v (IH ST) ST UM f b2 g' cc NC HN) as (-> & N & B).
      assert (P : 0 < top ctrs n) by (specialize (C n); simpl in C; rewrite String.eqb_refl in C; lia).
      apply String.eqb_eq in ON. assert (HB' := HB). rewrite <- ON in HB' at 1.
      destruct (badd_queue ctrs n _ b b' UL P K HB') as (K' & CT & O). rewrite ON in CT, O. split; auto.
      exists [(n, ABranch b2)], (Datatypes.S N). split; [constructor; auto|].
      { intros k NI. apply O. intros Q. apply NI. left. auto. }
      { intros e [<-|[]]. now left. }
      intros a RT m Hm b3 rest K3 C3 CF. inversion RT as [| | |? ? ? NN OT RT'| | | | | |]; subst.
      destruct m as [|m]; [lia|]. cbn [to_node]. rewrite NC. cbn [cbind].
      assert (C3' : forall k, content b3 k = pick k ((stem n, ABranch b2) :: []) ++ rest k) by (intros; rewrite ON; apply C3).
      destruct (pull_event ctrs n b3 (ABranch b2) [] rest UL P K3 C3') as (b4 & E4 & K4 & C4).
      rewrite ON in E4. rewrite E4. cbn [cbind].
      destruct (B RT' m ltac:(lia)) as (w & b5 & E5 & NW & MT). use_back E5. cbn [cbind].
      exists (relabel n w), b4. rewrite relabel_nil. repeat split; auto; try apply K4.
      unfold match_tag. cbn [own_tag andb]. unfold match_tag in MT. destruct OT as [OT|(x & y & -> & TK)].
      + rewrite OT in MT. destruct (String.eqb_spec n ""); [contradiction|]. exact MT.
      + cbn [own_tag andb] in MT. subst w.
        inversion SH as [| | |? ? u ? L SH'| | | | |]; subst. destruct TK as [TK|TK]; rewrite TK in L; inversion L; subst; inversion SH'; reflexivity.
    - (* rule *)
      intros r x t v L SH IH S f ctrs b b' g' UL C K H. inversion S as [| |? W OL| | | | | | | | |]; subst.
      pose proof (lookup_In _ _ _ L) as IL. unfold smooth_grammar in SG. rewrite Forall_forall in SG. destruct (SG _ IL) as [ST UM]. cbn [snd] in ST, UM.
      unfold regained in RG. rewrite Forall_forall in RG. destruct (RG _ IL) as (NX & OT & RT). cbn [fst snd] in NX, OT, RT.
      destruct f as [|f]; [discriminate|]. cbn [from_node] in H. rewrite L in H. apply cbind_inv in H as (cc & NC & H).
      destruct (unlevel_stem x g OL) as (z & UE). rewrite UE in H. cbn [cbind fst] in H.
      apply cbind_inv in H as ([b2 g2] & HN & H). apply cbind_inv in H as (b1 & HB & E). inversion E; subst.
      destruct (level_goes t x v (IH ST) ST UM f b2 g' cc NC HN) as (-> & N & B).
      assert (P : 0 < top ctrs x) by (specialize (C x); simpl in C; rewrite String.eqb_refl in C; lia).
      destruct (badd_queue ctrs x _ b b' UL P K HB) as (K' & CT & O). split; auto.
      exists [(stem x, ABranch b2)], (Datatypes.S N). split; [constructor; auto|].
      { intros k NI. apply O. intros Q. apply NI. left. auto. }
      { intros e [<-|[]]. now left. }
      intros a _ m Hm b3 rest K3 C3 CF. destruct m as [|m]; [lia|]. cbn [to_node]. rewrite UE, L. cbn [cbind fst].
      destruct (pull_event ctrs x b3 (ABranch b2) [] rest UL P K3 C3) as (b4 & E4 & K4 & C4).
      rewrite E4. cbn [cbind]. rewrite NC. cbn [cbind].
      destruct (B RT m ltac:(lia)) as (w & b5 & E5 & NW & MT). use_back E5. cbn [cbind].
      exists (relabel x w), b4. rewrite relabel_nil. repeat split; auto; try apply K4.
      unfold match_tag. cbn [own_tag andb]. unfold match_tag in MT. rewrite OT in MT.
      destruct (String.eqb_spec x ""); [contradiction|]. exact MT.
    - (* sequence *)
      intros r ts cs SH IH S f ctrs b b' g' UL C K H. inversion S; subst. destruct f as [|f]; [discriminate|]. cbn [from_node] in H.
      destruct (IH ltac:(auto) f [] ctrs b b' g' UL) as (-> & evs & N & R & B); auto.
      { rewrite Forall_forall. intros t J n. specialize (C n). cbn [hi] in C.
        eapply Nat.le_trans; [|exact C]. clear - J. induction ts; simpl; [contradiction|]. destruct J as [->|J]; [lia|]. apply IHts in J. lia. }
      split; auto. exists evs, (Datatypes.S N). split; [exact R|]. intros a RT m Hm b2 rest K2 C2 CF. destruct m as [|m]; [lia|]. cbn [to_node].
      destruct (B a RT m ltac:(lia) b2 rest [] K2 C2 CF) as (b3 & E3 & K3 & C3). use_back E3.
      exists (ONode seqTag XNone (map otree_of cs)), b3. repeat split; auto; try apply K3. apply (match_tag_node r (TSeq ts)). reflexivity.
    - (* choice *)
      intros r ts i t v NE SH IH S f ctrs b b' g' UL C K H. inversion S as [| | | | | |? FS| | | | |]; subst.
      pose proof (nth_error_In _ _ NE) as J. rewrite Forall_forall in FS.
      destruct f as [|f]; [discriminate|]. cbn [from_node] in H. apply cbind_inv in H as (b1 & HB & H). rewrite NE in H.
      destruct (badd_choice ctrs _ b b1 K HB) as (K1 & C1 & O1).
      assert (CT : counted ctrs t).
      { intros n. specialize (C n). cbn [hi] in C.
        eapply Nat.le_trans; [|exact C]. clear - J. induction ts; simpl; [contradiction|]. destruct J as [->|J]; [lia|]. apply IHts in J. lia. }
      destruct (IH (FS _ J) f ctrs b1 b' g' UL CT K1 H) as (-> & evs & N & R & B). split; auto.
      exists (("@choice"%string, AExtra (DChoice i)) :: evs), (Datatypes.S N). split.
      { change (("@choice"%string, AExtra (DChoice i)) :: evs) with ([("@choice"%string, AExtra (DChoice i))] ++ evs).
        apply (ran_weaken _ _ _ _ (["@choice"%string] ++ keys_of t)).
        - eapply ran_app; [|exact R]. constructor; auto.
          + intros k NI. apply O1. intros Q. apply NI. left. auto.
          + intros e [<-|[]]. now left.
        - intros k [<-|I]; [now left|]. right. apply in_flat_map. eauto. }
      intros a RT m Hm b2 rest K2 C2 CF. inversion RT as [| | | | | |? ? FR| | |]; subst. rewrite Forall_forall in FR.
      destruct m as [|m]; [lia|]. cbn [to_node].
      assert (CH : content b2 "@choice" = AExtra (DChoice i) :: pick "@choice" evs ++ rest "@choice"%string).
      { rewrite C2. unfold pick. simpl. reflexivity. }
      pose proof (proj2 K2) as LC. unfold listed in LC. unfold content in CH.
      destruct (lookup "@choice" b2) as [[y|ys]|] eqn:LK; [contradiction| |discriminate].
      destruct (pull_many_spec _ _ _ _ _ LK CH) as (b3 & E3 & C3 & S3 & O3). rewrite E3. cbn [cbind]. rewrite NE.
      assert (K3 : kinded ctrs b3).
      { apply (kinded_change ctrs b2 _ "@choice"); auto.
        - intros n En. symmetry in En. exfalso. eapply choice_no_stem; eauto.
        - intros _. unfold listed. destruct S3 as [->|(zs & ->)]; exact I. }
      destruct (B a (FR _ J) m ltac:(lia) b3 rest K3) as (w & b4 & E4 & NW & MT & K4 & C4); auto.
      { intros k. destruct (string_dec k "@choice") as [->|NK]; auto.
        unfold content at 1. rewrite O3 by auto. fold (content b2 k). rewrite C2. unfold pick. cbn [filter fst].
        replace ("@choice" =? k)%string with false by (symmetry; apply String.eqb_neq; congruence). reflexivity. }
      use_back E4. cbn [cbind]. apply match_tag_part in MT. subst w.
      exists (ONode oneofTag (XChoice i) [otree_of v]), b4. repeat split; auto; try apply K4.
      apply (match_tag_node r (TOneof ts) oneofTag (XChoice i) [v]). reflexivity.
    - (* repetition *)
      intros r t mn mx cs SH IH L1 L2 S f ctrs b b' g' UL C K H. inversion S; subst. destruct f as [|f]; [discriminate|]. cbn [from_node] in H.
      assert (CT : counted ctrs t).
      { intros n. specialize (C n). cbn [hi] in C. destruct (Nat.eqb_spec mx 0); [lia|]. nia. }
      destruct (IH ltac:(auto) f ctrs 0 b b' g' UL CT K H) as (-> & evs & N & R & _ & B).
      split; auto. exists evs, (Datatypes.S (N + length cs + 1)). split; [exact R|]. intros a RT m Hm b2 rest K2 C2 CF.
      inversion RT as [| | | | | | |? ? ? ? key GU NI RI| |]; subst. destruct m as [|m]; [lia|]. cbn [to_node].
      destruct (B a key mn mx GU NI RI m ltac:(lia) m ltac:(lia) b2 rest [] K2 L1 L2 C2 CF) as (b3 & E3 & K3 & C3).
      simpl length in E3. use_back E3. exists (ONode quantTag XNone (map otree_of cs)), b3. repeat split; auto; try apply K3.
      apply (match_tag_node r (TQuant t mn mx)). reflexivity.
    - (* list *)
      intros r t sep v cs SH1 IH1 SH2 IH2 S f ctrs b b' g' UL C K H. inversion S as [| | | | | | |? ? ? ? S1 S2 ND| | | |]; subst.
      assert (CT : counted ctrs t) by (intros n; specialize (C n); cbn [hi] in C; lia).
      assert (CS : counted ctrs sep) by (intros n; specialize (C n); cbn [hi] in C; lia).
      destruct f as [|f]; [discriminate|].
      change (each (list_step f t sep (TDelim t sep NonAssociative false false) (tag_or r delimTag) ctrs) 0 (v :: cs) (b, g) = COk (b', g')) in H.
      cbn [each] in H. apply cbind_inv in H as ([b1 g1] & H1 & H2).
      rewrite list_step_item in H1 by (auto; eapply shaped_not_empty; eauto).
      destruct (IH1 S1 f ctrs b b1 g1 UL CT K H1) as (-> & e1 & N1 & R1 & B1).
      destruct (IH2 S1 S2 ND f ctrs 1 _ b1 b' g' UL CT CS (rn_kinded _ _ _ _ _ R1) eq_refl H2) as (-> & e2 & N2 & R2 & B2).
      split; auto. exists (e1 ++ e2), (Datatypes.S (N1 + N2 + length cs + 2)). split.
      { eapply ran_weaken; [eapply ran_app; [exact R1|exact R2]|]. intros k I. apply in_app_or in I as [I|I]; auto. apply in_or_app. auto. }
      intros a RT m Hm b2 rest K2 C2 CF. inversion RT as [| | | | | | | |? ? ? key GU NI RI RS|]; subst.
      destruct m as [|m]; [lia|]. cbn [to_node]. destruct m as [|m]; [lia|].
      cbn [to_delim Nat.even].
      destruct (B1 _ RI (Datatypes.S m) ltac:(lia) b2 (fun k => pick k e2 ++ rest k) K2) as (w & b3 & E3 & NW & MT & K3 & C3).
      { intros k. rewrite C2, pick_app, app_assoc. reflexivity. }
      { rewrite app_assoc. apply confined_more; auto. apply R2. }
      use_back E3. cbn [cbind]. rewrite NW. apply match_tag_part in MT. subst w. cbn [app].
      destruct (B2 a key GU NI RI RS (Datatypes.S m) ltac:(lia) m ltac:(lia) 1 b3 rest [otree_of v] K3 eq_refl C3 CF) as (b4 & E4 & K4 & C4).
      use_back E4. exists (ONode delimTag (XAssoc NonAssociative) ([otree_of v] ++ map otree_of cs)), b4.
      repeat split; auto; try apply K4.
      apply (match_tag_node r (TDelim t sep NonAssociative false false) delimTag (XAssoc NonAssociative) (v :: cs)). reflexivity.
    - (* cut *)
      intros r t v SH IH S f ctrs b b' g' UL C K H. inversion S; subst. destruct f as [|f]; [discriminate|]. cbn [from_node] in H.
      destruct (IH ltac:(auto) f ctrs b b' g' UL C K H) as (-> & evs & N & R & B). split; auto.
      exists evs, (Datatypes.S N). split; [exact R|]. intros a RT m Hm b2 rest K2 C2 CF. inversion RT; subst.
      destruct m as [|m]; [lia|]. cbn [to_node]. apply (B a ltac:(auto) m ltac:(lia) b2 rest K2 C2 CF).
    - (* no term left *)
      intros _ f pre ctrs b b' g' UL _ K H. cbn [each] in H. inversion H; subst. split; auto. exists [], 0. split; [now apply ran_nil|].
      intros a _ m _ b2 rest acc K2 C2 CF. exists b2. simpl. rewrite app_nil_r. repeat split; auto; apply K2.
    - intros t ts v cs SH1 IH1 SH2 IH2 S f pre ctrs b b' g' UL C K H. inversion S as [|? ? S1 S2]; subst. inversion C as [|? ? C1 C2]; subst.
      cbn [each] in H. apply cbind_inv in H as ([b1 g1] & H1 & H2).
      replace (nth_error (pre ++ t :: ts) (length pre)) with (Some t) in H1 by (rewrite nth_error_app2, Nat.sub_diag by lia; reflexivity).
      destruct (IH1 S1 f ctrs b b1 g1 UL C1 K H1) as (-> & e1 & N1 & R1 & B1).
      destruct (IH2 S2 f (pre ++ [t]) ctrs b1 b' g' UL C2 (rn_kinded _ _ _ _ _ R1)) as (-> & e2 & N2 & R2 & B2).
      { rewrite <- app_assoc, app_length. simpl. rewrite Nat.add_1_r. exact H2. }
      split; auto. exists (e1 ++ e2), (Nat.max N1 N2). split; [exact (ran_app _ _ _ _ _ _ _ _ R1 R2)|].
      intros a RT m Hm b2 rest acc K2 CC CF. inversion RT as [| | | | |? ? ? RT1 RT2| | | |]; subst. cbn [to_seq].
      destruct (B1 _ RT1 m ltac:(lia) b2 (fun k => pick k e2 ++ rest k) K2) as (w & b3 & E3 & NW & MT & K3 & C3).
      { intros k. rewrite CC, pick_app, app_assoc. reflexivity. }
      { apply confined_more; auto. apply R2. }
      use_back E3. cbn [cbind]. rewrite NW. apply match_tag_part in MT. subst w.
      destruct (B2 a RT2 m ltac:(lia) b3 rest (acc ++ [otree_of v]) K3 C3 CF) as (b4 & E4 & K4 & C4).
      use_back E4. exists b4. rewrite <- app_assoc. auto.
    - (* no repetition left *)
      intros t S f ctrs i b b' g' UL C K H. cbn [each] in H. injection H as <- <-. split; auto.
      destruct (guard t) as [key0|] eqn:GT.
      + destruct (guard_absent g t key0 GT S) as (N & GA). exists [], N. split; [now apply ran_nil|]. split; auto.
        intros a key mn mx GU NI RI m Hm n Hn b2 rest acc K2 L1 L2 C2 CF. inversion GU; subst key0. destruct n as [|n]; [simpl in Hn; lia|].
        simpl length in L1, L2. rewrite Nat.add_0_r in L1, L2. cbn [to_quant].
        assert (ML : max_less_than mx (length acc) = false).
        { unfold max_less_than. destruct (Nat.eqb_spec mx 0); [reflexivity|]. simpl. apply Nat.ltb_ge. lia. }
        rewrite ML. rewrite (GA m Hm ctrs b2 C K2).
        * cbn [cbind is_onil]. unfold to_quant_end, quant_contains. rewrite ML. simpl.
          replace (mn <=? length acc) with true by (symmetry; apply Nat.leb_le; lia). simpl. rewrite app_nil_r. exists b2.
          repeat split; auto; apply K2.
        * rewrite C2. simpl. destruct (rest key) eqn:RK; [reflexivity|]. exfalso. apply NI. apply CF. congruence.
      + exists [], 0. split; [now apply ran_nil|]. split; auto. intros a key mn mx GU. discriminate.
    - intros t v cs SH1 IH1 SH2 IH2 S f ctrs i b b' g' UL C K H.
      cbn [each] in H. apply cbind_inv in H as ([b1 g1] & H1 & H2).
      destruct (IH1 S f ctrs b b1 g1 UL C K H1) as (-> & e1 & N1 & R1 & B1).
      destruct (IH2 S f ctrs (Datatypes.S i) b1 b' g' UL C (rn_kinded _ _ _ _ _ R1) H2) as (-> & e2 & N2 & R2 & Z2 & B2).
      split; auto. exists (e1 ++ e2), (Nat.max N1 N2). split.
      { eapply ran_weaken; [exact (ran_app _ _ _ _ _ _ _ _ R1 R2)|]. intros k I. apply in_app_or in I as [I|I]; auto. }
      split; [discriminate|].
      intros a key mn mx GU NI RI m Hm n Hn b2 rest acc K2 L1 L2 CC CF. destruct n as [|n]; [lia|]. simpl length in *.
      cbn [to_quant].
      assert (ML : max_less_than mx (length acc) = false).
      { unfold max_less_than. destruct (Nat.eqb_spec mx 0); [reflexivity|]. simpl. apply Nat.ltb_ge. lia. }
      rewrite ML.
      destruct (B1 _ RI m ltac:(lia) b2 (fun k => pick k e2 ++ rest k) K2) as (w & b3 & E3 & NW & MT & K3 & C3).
      { intros k. rewrite CC, pick_app, app_assoc. reflexivity. }
      { destruct (Nat.eqb_spec mx 1) as [->|NM].
        - assert (e2 = []) as ->. { apply Z2. destruct cs; auto. simpl in L2. lia. }
          intros k Q. apply in_or_app. right. apply CF. exact Q.
        - apply confined_more; auto. apply R2. }
      use_back E3. cbn [cbind]. rewrite NW. apply match_tag_part in MT. subst w.
      assert (LA : length (acc ++ [otree_of v]) = Datatypes.S (length acc)) by (rewrite app_length; simpl; lia).
      destruct (B2 a key mn mx GU NI RI m ltac:(lia) n ltac:(lia) b3 rest (acc ++ [otree_of v]) K3) as (b4 & E4 & K4 & C4); auto; try lia.
      rewrite LA in E4. use_back E4. exists b4. rewrite <- app_assoc. auto.
    - (* no separator left *)
      intros t sep S1 S2 ND f ctrs i tag b b' g' UL C1 C2 K _ H. cbn [each] in H. injection H as <- <-. split; auto.
      destruct (guard sep) as [key0|] eqn:GT.
      + destruct (guard_absent g sep key0 GT S2) as (N & GA). exists [], N. split; [now apply ran_nil|].
        intros a key GU NI RI RS m Hm n Hn j b2 rest acc K2 OJ CC CF. inversion GU; subst key0. destruct n as [|n]; [simpl in Hn; lia|].
        cbn [to_delim]. rewrite <- Nat.negb_odd, OJ. cbn [negb]. rewrite (GA m Hm ctrs b2 C2 K2).
        * cbn [cbind is_onil]. simpl. rewrite app_nil_r. exists b2. repeat split; auto; apply K2.
        * rewrite CC. simpl. destruct (rest key) eqn:RK; [reflexivity|]. exfalso. apply NI. apply CF. congruence.
      + exists [], 0. split; [now apply ran_nil|]. intros a key GU. discriminate.
    - intros t sep s x cs SH1 IH1 SH2 IH2 SH3 IH3 S1 S2 ND f ctrs i tag b b' g' UL CT CS K OI H.
      cbn [each] in H. apply cbind_inv in H as ([b1 g1] & H1 & H). apply cbind_inv in H as ([b2 g2] & H2 & H3).
      rewrite list_step_sep in H1 by (auto; eapply shaped_not_empty; eauto).
      assert (OS : Nat.odd (Datatypes.S i) = false) by (rewrite Nat.odd_succ, <- Nat.negb_odd, OI; reflexivity).
      assert (OSS : Nat.odd (Datatypes.S (Datatypes.S i)) = true) by (rewrite Nat.odd_succ, <- Nat.negb_odd, OS; reflexivity).
      rewrite list_step_item in H2 by (auto; eapply shaped_not_empty; eauto).
      destruct (IH1 S2 f ctrs b b1 g1 UL CS K H1) as (-> & e1 & N1 & R1 & B1).
      destruct (IH2 S1 f ctrs b1 b2 g2 UL CT (rn_kinded _ _ _ _ _ R1) H2) as (-> & e2 & N2 & R2 & B2).
      destruct (IH3 S1 S2 ND f ctrs _ tag b2 b' g' UL CT CS (rn_kinded _ _ _ _ _ R2) OSS H3) as (-> & e3 & N3 & R3 & B3).
      split; auto. exists (e1 ++ e2 ++ e3), (N1 + N2 + N3). split.
      { eapply ran_weaken; [exact (ran_app _ _ _ _ _ _ _ _ R1 (ran_app _ _ _ _ _ _ _ _ R2 R3))|].
        intros k I. rewrite !in_app_iff in *. tauto. }
      intros a key GU NI RI RS m Hm n Hn j c0 rest acc K2 OJ CC CF. destruct n as [|n]; [lia|]. simpl length in Hn. destruct n as [|n]; [lia|].
      assert (OJS : Nat.odd (Datatypes.S j) = false) by (rewrite Nat.odd_succ, <- Nat.negb_odd, OJ; reflexivity).
      assert (OJSS : Nat.odd (Datatypes.S (Datatypes.S j)) = true) by (rewrite Nat.odd_succ, <- Nat.negb_odd, OJS; reflexivity).
      cbn [to_delim]. rewrite <- Nat.negb_odd, OJ. cbn [negb].
      destruct (B1 _ RS m ltac:(lia) c0 (fun k => pick k (e2 ++ e3) ++ rest k) K2) as (w & c1 & E1 & NW & MT & K3 & C3).
      { intros k. rewrite CC, pick_app, app_assoc. reflexivity. }
      { rewrite app_assoc. apply confined_more; auto. intros e I. apply in_app_or in I as [I|I].
        - apply in_or_app. left. apply (rn_keys _ _ _ _ _ R2 e I).
        - apply (rn_keys _ _ _ _ _ R3 e I). }
      use_back E1. cbn [cbind]. rewrite NW. apply match_tag_part in MT. subst w.
      rewrite <- Nat.negb_odd, OJS. cbn [negb].
      destruct (B2 _ RI m ltac:(lia) c1 (fun k => pick k e3 ++ rest k) K3) as (w & c2 & E2 & NW2 & MT & K4 & C4).
      { intros k. rewrite C3, pick_app, app_assoc. reflexivity. }
      { rewrite app_assoc. apply confined_more; auto. apply R3. }
      use_back E2. cbn [cbind]. rewrite NW2. apply match_tag_part in MT. subst w.
      destruct (B3 a key GU NI RI RS m ltac:(lia) n ltac:(lia) _ c2 rest ((acc ++ [otree_of s]) ++ [otree_of x]) K4 OJSS C4 CF) as (c3 & E3 & K5 & C5).
      use_back E3. exists c3. rewrite <- !app_assoc. auto.
  Qed.
End Back.

(** * The whole tree *)

Lemma no_rule_key : forall t, smooth t -> ~ In "@rule"%string (keys_of t).
Proof.
  assert (O : forall n, ordinary n = true -> n <> "@rule"%string).
  { intros n H E. unfold ordinary in H. apply String.eqb_eq in H. rewrite E in H. exact (stem_not_at _ _ H). }
  assert (L : forall ts, Forall (fun t => smooth t -> ~ In "@rule"%string (keys_of t)) ts -> Forall smooth ts ->
    ~ In "@rule"%string (flat_map keys_of ts)).
  { intros ts F1 F2 I. apply in_flat_map in I as (t & J & I). rewrite Forall_forall in *. exact (F1 t J (F2 t J) I). }
  induction t using term_ind'; intros S I; inversion S; subst; simpl in I; auto.
  - destruct I as [I|[]]. exact (stem_not_at _ _ I).
  - destruct I as [I|[]]. discriminate.
  - destruct I as [I|[]]. discriminate.
  - destruct I as [I|[]]. exact (O i H0 I).
  - exact (L _ H H1 I).
  - destruct I as [I|I]; [discriminate|]. exact (L _ H H1 I).
  - apply in_app_or in I as [I|I]; [exact (IHt1 H2 I)|exact (IHt2 H5 I)].
  - eapply IHt; eauto.
  - eapply IHt; eauto.
  - destruct I as [I|[]]. eapply O; eauto.
  - eapply IHt; eauto.
  - eapply IHt; eauto.
Qed.

Theorem round_trip : forall g, smooth_grammar g -> regained g -> forall r t v, lookup r g = Some t -> shaped g r t v ->
  (forall s, v <> Leaf s) -> forall n b g', from_parser_node n g v = COk (b, g') ->
  exists N, forall m, N <= m -> to_parser_node m g b = COk (otree_of v, g).
Proof.
  intros g SG RG r t v L SH NL n b g' H.
  pose proof (lookup_In _ _ _ L) as IL. pose proof SG as SG'. unfold smooth_grammar in SG'. rewrite Forall_forall in SG'.
  destruct (SG' _ IL) as [ST UM]. cbn [snd] in ST, UM.
  pose proof RG as RG'. unfold regained in RG'. rewrite Forall_forall in RG'. destruct (RG' _ IL) as (NX & OT & RT). cbn [fst snd] in NX, OT, RT.
  assert (TG : exists x cs, v = Node r x cs).
  { clear - SH NL OT NX. remember r as q eqn:Eq. revert Eq NX OT.
    induction SH; intros Eq NX OT; try discriminate; subst; rewrite ?tag_or_own by auto; eauto; try (exfalso; eapply NL; reflexivity). }
  destruct TG as (x & cs & ->). cbn [from_parser_node] in H. rewrite L in H. apply cbind_inv in H as (cc & NC & H).
  destruct (level_fine t ST UM) as (cc' & NC' & UL & C). assert (cc' = cc) by congruence. subst cc'.
  set (b0 := [("@rule"%string, One (AExtra (DRule r)))]) in *.
  assert (K0 : kinded cc b0).
  { apply (kinded_change cc [] b0 "@rule"); [apply kinded_nil| | |discriminate].
    - intros k' NK. unfold b0. cbn [lookup]. replace ("@rule" =? k')%string with false by (symmetry; apply String.eqb_neq; congruence).
      try reflexivity. destruct (k' =? "@rule")%string eqn:EK; [apply String.eqb_eq in EK; congruence|reflexivity].
    - intros k EK. exfalso. exact (stem_not_at _ _ EK). }
  destruct (proj1 (shaped_goes g SG RG) r t _ SH ST n cc b0 b g' UL C K0 H) as (-> & evs & N & R & B).
  exists N. intros m Hm. unfold to_parser_node, pull_one.
  pose proof (no_rule_key t ST) as NK.
  rewrite (rn_other _ _ _ _ _ R _ NK). cbn [b0 lookup]. rewrite String.eqb_refl. cbn [cbind]. rewrite L, NC. cbn [cbind].
  assert (PK : pick "@rule" evs = []).
  { destruct (pick "@rule" evs) eqn:P; auto. exfalso. destruct (pick_keys "@rule" evs) as (y & J); [congruence|].
    exact (NK (rn_keys _ _ _ _ _ R _ J)). }
  destruct (B [] RT m Hm (adel "@rule" b) (fun _ => [])) as (w & b3 & E & NW & MT & _ & _).
  - apply (kinded_change cc b _ "@rule"); [apply R| | |discriminate].
    + intros k' N'. apply lookup_adel_neq. auto.
    + intros k EK. exfalso. exact (stem_not_at _ _ EK).
  - intros k. rewrite app_nil_r. destruct (string_dec k "@rule") as [->|N'].
    + unfold content. rewrite lookup_adel_eq, PK. reflexivity.
    + unfold content. rewrite lookup_adel_neq by auto. fold (content b k). rewrite (rn_content _ _ _ _ _ R).
      unfold content, b0. cbn [lookup]. destruct (String.eqb_spec k "@rule"); [contradiction|].
      try destruct (String.eqb_spec "@rule" k); try congruence; reflexivity.
  - intros k Q. congruence.
  - use_back E. cbn [cbind]. unfold match_tag in MT. rewrite OT in MT. destruct (String.eqb_spec r ""); [contradiction|]. simpl in MT.
    rewrite MT. reflexivity.
Qed.

(** * Parsed trees have the shape *)

Fixpoint plain (t : term) : bool :=
  match t with
  | TS _ | TRE _ | TRule _ => true
  | TNamed _ t | TQuant t _ _ | TCut t => plain t
  | TSeq ts | TOneof ts => forallb plain ts
  | TDelim t sep NonAssociative false false => plain t && plain sep
  | _ => false
  end.
Lemma regains_plain : forall g t a, regains g a t -> plain t = true.
Proof.
  intros g. induction t using term_ind'; intros b R; try (inversion R; subst; simpl; eauto; fail).
  - revert b R. induction ts as [|t ts IH]; intros b R; [reflexivity|]. inversion R; subst. inversion H as [|? ? H1 H2]; subst. simpl.
    erewrite H1 by eauto. exact (IH H2 b ltac:(assumption)).
  - inversion R; subst. simpl. rewrite forallb_forall. rewrite Forall_forall in *. eauto.
  - inversion R; subst. simpl. erewrite IHt1, IHt2 by eauto. reflexivity.
Qed.

Section Shape.
  Variable E : engine.
  Variable g : grammar.
  Hypothesis RG : regained g.

  Lemma rule_plain : forall x gs' t, rule_body [g] x gs' t -> gs' = [g] /\ lookup x g = Some t /\ plain t = true.
  Proof.
    intros x gs' t RB. inversion RB as [? ? ? u ? L A|? ? ? ? ? _ Q]; subst; [|inversion Q]. split; auto.
    pose proof RG as RG'. unfold regained in RG'. rewrite Forall_forall in RG'. destruct (RG' _ (lookup_In _ _ _ L)) as (_ & OT & RT).
    cbn [snd] in *. inversion A; subst; [|discriminate]. split; auto. eapply regains_plain; eauto.
  Qed.

  Lemma pairs_shaped : forall t sep more pairs, shaped_many g (TSeq [sep; t]) more -> pairs_flat more pairs -> shaped_pairs g t sep pairs.
  Proof.
    intros t sep. induction more as [|v more IH]; intros pairs M P.
    - inversion P; subst. constructor.
    - inversion M as [|? ? ? SV SM]; subst. inversion SV as [| | | |? ? ? SA| | | |]; subst.
      inversion SA as [|? ? ? ? S1 SB]; subst. inversion SB as [|? ? ? ? S2 SC]; subst. inversion SC; subst.
      inversion P as [|? ? ? ? ? PO PF]; subst. destruct PO as (? & ? & ? & Q). inversion Q; subst. constructor; auto.
  Qed.

  Theorem derives_shaped :
    (forall gs vs r t s v s', derives E gs vs r t s v s' -> gs = [g] -> plain t = true -> shaped g r t v) /\
    (forall gs vs ts s cs s', derives_all E gs vs ts s cs s' -> gs = [g] -> forallb plain ts = true -> shaped_all g ts cs) /\
    (forall gs vs t s cs s', derives_many E gs vs t s cs s' -> gs = [g] -> plain t = true -> shaped_many g t cs).
  Proof.
    apply derives_mutind.
    - intros gs vs r x s pat v s' TP T G P. inversion T; subst; constructor.
    - intros gs vs r x s pat v s' TP T G P. inversion T; subst; constructor.
    - intros. constructor. auto.
    - intros. constructor. auto.
    - intros. discriminate.
    - intros gs vs r x gs' t s v s' RB D IH -> P. destruct (rule_plain _ _ _ RB) as (-> & L & PT). econstructor; eauto.
    - intros. constructor. auto.
    - intros gs vs r ts i t s v s' NE D IH G P. econstructor; eauto. apply IH; auto. simpl in P. rewrite forallb_forall in P.
      apply P. eapply nth_error_In; eauto.
    - intros. constructor; auto.
    - intros. discriminate.
    - intros gs vs r t sep a cs ce s v s' items v' D IH DI DR -> P. simpl in P. destruct a; try discriminate.
      destruct cs, ce; try discriminate. apply andb_true_iff in P as [P1 P2]. simpl in DR. subst v'.
      assert (SH : shaped g r (delim_seq t sep false false) v). { apply IH; auto. simpl. rewrite P1, P2. reflexivity. }
      destruct DI as (tag & ex & cs1 & core & cs2 & lead & trail & first & more & pairs & -> & L & O1 & O2 & _ & (t1 & x1 & t2 & x2 & rr & ->) & PF & ->).
      destruct cs1; [|discriminate]. simpl in O1, O2. subst lead trail. cbn [app] in *. rewrite app_nil_r.
      unfold delim_seq in SH. simpl in SH. inversion SH as [| | | |? ? ? SA| | | |]; subst.
      inversion SA as [|? ? ? ? SC SN]; subst. inversion SN; subst. inversion SC as [| | | |? ? ? SA2| | | |]; subst.
      inversion SA2 as [|? ? ? ? SF SM]; subst. inversion SM as [|? ? ? ? SQ SN2]; subst. inversion SN2; subst.
      inversion SQ as [| | | | | |? ? ? ? ? SMM _ _| |]; subst. constructor; auto. eapply pairs_shaped; eauto.
    - intros. discriminate.
    - intros. discriminate.
    - intros. constructor.
    - intros gs vs t ts s v s1 cs s' D IH DA IHA G P. simpl in P. apply andb_true_iff in P as [P1 P2]. constructor; auto.
    - intros. constructor.
    - intros. constructor; auto.
  Qed.
End Shape.

Theorem compiled_round_trip : forall c, cf_esc c = None -> forall g ps, compile (cf_eng c) g = COk ps ->
  readable (p_grammar ps) -> smooth_grammar (p_grammar ps) -> coherent (p_grammar ps) -> regained (p_grammar ps) ->
  forall r, r <> WrapRE -> forall f s v s', drawn_ok (cf_rnd c) (draws c f ps r s) -> result (parse_rule c f ps r s) v s' ->
  (forall x, v <> Leaf x) ->
  exists N, forall n, N <= n -> exists b g', from_parser_node n (p_grammar ps) v = COk (b, g') /\
  exists M, forall m, M <= m -> to_parser_node m (p_grammar ps) b = COk (otree_of v, p_grammar ps).
Proof.
  intros c NE g ps C R SG CG RG r W f s v s' D P NL.
  pose proof (compiled_again _ _ _ C (proj1 R)) as C2.
  pose proof (result_derives c NE _ ps C2 R f r s v s' D P) as X. unfold rule_derives in X.
  inversion X as [| | | | |? ? ? ? gs' u ? ? ? RB DD| | | | | | |]; subst.
  destruct (rule_plain _ RG _ _ _ RB) as (-> & L & PT).
  pose proof (proj1 (derives_shaped (cf_eng c) _ RG) _ _ _ _ _ _ _ DD eq_refl PT) as SH.
  pose proof RG as RG'. unfold regained in RG'. rewrite Forall_forall in RG'. destruct (RG' _ (lookup_In _ _ _ L)) as (NX & OT & RT).
  cbn [fst snd] in *.
  destruct (compiled_converts c NE g ps C R SG CG r W NX) with (f := f) (s := s) (v := v) (s' := s') as (N & H); auto.
  { intros t RB'. destruct (rule_plain _ RG _ _ _ RB') as (_ & L' & _). congruence. }
  exists N. intros n Hn. destruct (H n Hn) as (b & g' & F). exists b, g'. split; auto. eapply round_trip; eauto.
Qed.

(** * Checking a grammar *)

Definition token_rule_b (g : grammar) (t : term) : bool :=
  match t with
  | TRule r => match lookup r g with Some (TS _) | Some (TRE _) => true | _ => false end
  | _ => false
  end.
Lemma token_rule_b_ok : forall g t, token_rule_b g t = true -> token_rule g t.
Proof.
  intros g t H. destruct t; try discriminate. simpl in H. destruct (lookup r g) as [[]|] eqn:L; try discriminate; red; eauto.
Qed.
Definition has_key (k : string) (a : list string) : bool := existsb (String.eqb k) a.
Fixpoint regains_b (g : grammar) (a : list string) (t : term) : bool :=
  match t with
  | TS _ | TRE _ | TRule _ => true
  | TNamed n t => negb (String.eqb n "") && (own_tag t || token_rule_b g t) && regains_b g [] t
  | TSeq ts => (fix go (ts : list term) : bool :=
                  match ts with
                  | [] => true
                  | t :: ts => regains_b g (flat_map keys_of ts ++ a) t && go ts
                  end) ts
  | TOneof ts => forallb (regains_b g a) ts
  | TQuant t _ mx =>
      match guard t with
      | Some k => negb (has_key k a) && regains_b g ((if Nat.eqb mx 1 then [] else keys_of t) ++ a) t
      | None => false
      end
  | TDelim t sep NonAssociative false false =>
      match guard sep with
      | Some k => negb (has_key k a) && regains_b g (keys_of t ++ keys_of sep ++ a) t && regains_b g (keys_of t ++ keys_of sep ++ a) sep
      | None => false
      end
  | TCut t => regains_b g a t
  | _ => false
  end.
Lemma has_key_no : forall k a, negb (has_key k a) = true -> ~ In k a.
Proof.
  intros k a H I. apply negb_true_iff in H. unfold has_key in H.
  assert (X : existsb (String.eqb k) a = true) by (apply existsb_exists; exists k; split; [auto|apply String.eqb_refl]). congruence.
Qed.
Lemma regains_b_ok : forall g t a, regains_b g a t = true -> regains g a t.
Proof.
  intros g. induction t using term_ind'; intros b H'; try discriminate; try (constructor; fail).
  - revert b H'. induction ts as [|t ts IH]; intros b H'; [constructor|]. inversion H; subst. simpl in H'.
    apply andb_true_iff in H' as [A B]. constructor; auto.
  - constructor. simpl in H'. rewrite forallb_forall in H'. rewrite Forall_forall in *. auto.
  - simpl in H'. destruct a; try discriminate. destruct cs, ce; try discriminate. destruct (guard t2) eqn:GU; [|discriminate].
    apply andb_true_iff in H' as [A B]. apply andb_true_iff in A as [A C]. econstructor; eauto. now apply has_key_no.
  - simpl in H'. destruct (guard t) eqn:GU; [|discriminate]. apply andb_true_iff in H' as [A B].
    econstructor; eauto. now apply has_key_no.
  - simpl in H'. apply andb_true_iff in H' as [A B]. apply andb_true_iff in A as [A C]. constructor; auto.
    + intros ->. discriminate.
    + apply orb_true_iff in C as [C|C]; auto. right. now apply token_rule_b_ok.
  - constructor. auto.
Qed.
Definition regained_b (g : grammar) : bool :=
  forallb (fun kv => negb (String.eqb (fst kv) "") && own_tag (snd kv) && regains_b g [] (snd kv)) g.
Lemma regained_b_ok : forall g, regained_b g = true -> regained g.
Proof.
  intros g H. unfold regained_b in H. rewrite forallb_forall in H. unfold regained. rewrite Forall_forall. intros kv I.
  specialize (H kv I). apply andb_true_iff in H as [A B]. apply andb_true_iff in A as [A C]. repeat split; auto.
  - intros Q. rewrite Q in A. discriminate.
  - now apply regains_b_ok.
Qed.
