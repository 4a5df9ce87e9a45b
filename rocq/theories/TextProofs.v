(** The builder and the search for danger terms on the AST of a grammar text. *)
From Verif Require Import Base Scanner Syntax Resolve Ast WbnfAst Walker StrLit Build Recursion Validate AstProofs WalkerSpec WalkerProofs RefsSpec RefsProofs TextSpec NumSpec NumProofs.

Fixpoint depth (c : ctext) : nat :=
  match c with
  | CRule _ | CLit _ | CRe _ | CRef _ _ | CExt _ | CNone => 0
  | CLook c | CGroup c => depth c
  | CChoice cs | CSeq cs | CStack cs => S (list_max (map depth cs))
  | CLeaf _ a qs => S (Nat.max (depth a) (list_max (map (fun q => match q with QRep _ _ _ => 0 | QList _ _ s _ _ => depth s end) qs)))
  end.

(** The result, unless the fuel does not even suffice for the depth [d]. *)
Definition nearly {A} (f d : nat) (r : cres A) (v : A) : Prop := r = COk v \/ (r = CDiv /\ f <= d).

Lemma nearly_ok : forall A f d (v : A), nearly f d (COk v) v.
Proof. now left. Qed.
Lemma nearly_bind : forall A B f d d' (r : cres A) v (k : A -> cres B) w, nearly f d r v -> d <= d' ->
  nearly f d' (k v) w -> nearly f d' (cbind r k) w.
Proof. intros A B f d d' r v k w [->|[-> L]] LE H; [exact H|right; simpl; split; auto; lia]. Qed.
Lemma nearly_weaken : forall A f d f' d' (r : cres A) v, nearly f d r v -> d + f' <= d' + f -> nearly f' d' r v.
Proof. intros A f d f' d' r v [->|[-> L]] LE; [now left|right; split; auto; lia]. Qed.

Lemma list_max_in : forall l x, In x l -> x <= list_max l.
Proof. intros l x I. pose proof (proj1 (list_max_le l (list_max l)) (Nat.le_refl _)) as F. rewrite Forall_forall in F. auto. Qed.

Lemma kind_branch : forall n k, kind_of n k -> exists b, n = ABranch b /\ which b atom_kinds = k.
Proof. auto. Qed.
Lemma text_one : forall name n s, text_at name n s -> cbind (deref (node_one n name)) node_text = COk s.
Proof. intros name n s (m & -> & T). exact T. Qed.
Lemma text_string : forall name n s, text_at name n s -> exists m, one name n = Some m /\ string_of (one name n) = COk (sb s).
Proof. intros name n s (m & M & T). exists m. unfold one, first_of. rewrite M. split; auto. unfold string_of. rewrite T. reflexivity. Qed.

(** * Building *)

Section Step.
  Variables (ms : macros) (rec : anode -> cres term) (f : nat).
  Hypothesis rec_near : forall t c, reads t c -> nearly f (depth c) (rec t) (term_of c).

  Lemma atom_near : forall n a, reads_atom n a -> nearly f (depth a) (build_atom ms rec n) (term_of a).
  Proof.
    intros n a H. destruct H as [n s K T B|n s v K T P B|n s v K T P B|n r i K O I D B|n r i d v K O I D NE P B|n r i K O I B|n t c K O R B|n t c K O R|n K B];
      destruct (kind_branch _ _ K) as (b & -> & W); unfold build_atom; rewrite W; cbn [String.eqb Ascii.eqb Bool.eqb].
    - rewrite (text_one _ _ _ T). left. reflexivity.
    - rewrite (text_one _ _ _ T). cbn [cbind]. rewrite P. left. reflexivity.
    - rewrite (text_one _ _ _ T). cbn [cbind]. rewrite P. left. reflexivity.
    - rewrite O. cbn [deref cbind]. rewrite I. cbn [cbind]. rewrite D. left. reflexivity.
    - rewrite O. cbn [deref cbind]. rewrite I. cbn [cbind]. rewrite D. cbn [cbind]. apply String.eqb_neq in NE. rewrite NE, P. left. reflexivity.
    - rewrite O. cbn [deref cbind]. rewrite I. left. reflexivity.
    - rewrite O. cbn [deref cbind]. eapply nearly_bind; [apply rec_near; eauto|apply Nat.le_refl|]. left. reflexivity.
    - rewrite O. cbn [deref cbind]. apply (rec_near t c). auto.
    - left. reflexivity.
  Qed.
  Lemma named_near : forall n name a, reads_named n name a -> nearly f (depth a) (build_named ms rec n) (named_term name (term_of a)).
  Proof.
    intros n name a H. destruct H as [n name at_ a I O R]. unfold build_named. rewrite O. cbn [deref cbind].
    eapply nearly_bind; [apply atom_near; eauto|apply Nat.le_refl|]. rewrite I. left. reflexivity.
  Qed.
  Definition quanted (q : quant ctext) (t : term) : term :=
    match q with
    | QRep mn mx _ => TQuant t mn mx
    | QList ass sn sep l r => TDelim t (named_term sn (term_of sep)) ass l r
    end.
  Definition qdepth (q : quant ctext) : nat := match q with QRep _ _ _ => 0 | QList _ _ s _ _ => depth s end.
  Lemma quant_near : forall n q t, reads_quant n q -> nearly f (qdepth q) (build_quant ms rec n t) (quanted q t).
  Proof.
    intros n q t H. destruct H as [n C O M N|n C O M N|n C O N|n mx C O M N B|n m x mn mx C O N M X B B'|n op a nd name sep l r C O A M N R L T];
      unfold build_quant; rewrite C; cbn [cbind Z.eqb Pos.eqb].
    - rewrite O. left. reflexivity.
    - rewrite O. left. reflexivity.
    - rewrite O. left. reflexivity.
    - apply bound_of_ok in B. rewrite M. unfold bound at 1. cbn [string_of cbind String.eqb]. rewrite B. left. reflexivity.
    - apply bound_of_ok in B. apply bound_of_ok in B'. rewrite M, B. cbn [cbind]. rewrite B'. left. reflexivity.
    - apply direction_assoc in A. rewrite O. cbn [cbind]. rewrite A. cbn [cbind]. rewrite N. cbn [deref cbind].
      eapply nearly_bind; [apply named_near; eauto|apply Nat.le_refl|]. rewrite L. cbn [cbind]. rewrite T. left. reflexivity.
  Qed.
End Step.

Lemma traverse_near : forall (rec : anode -> cres term) f ts cs, (forall t c, reads t c -> nearly f (depth c) (rec t) (term_of c)) ->
  Forall2 reads ts cs -> nearly f (list_max (map depth cs)) (ctraverse rec ts) (map term_of cs).
Proof.
  intros rec f ts cs R F. induction F as [|t c ts cs H F IH]; [now left|]. cbn [ctraverse map].
  eapply nearly_bind; [apply R; eauto|apply list_max_in; now left|].
  eapply nearly_bind; [exact IH|simpl; lia|]. left. reflexivity.
Qed.

Lemma build_near : forall ms f t c, reads t c -> nearly f (depth c) (build_term ms f t) (term_of c).
Proof.
  intros ms. induction f as [|f IH]; intros t c H; [right; split; [reflexivity|lia]|].
  destruct H as [t cs O NE F|t cs O NE F|t cs O NE G F|t n name a qs O E N R F]; cbn [build_term].
  - destruct (all "term" t) as [|t0 ts0] eqn:T; [congruence|]. rewrite <- T in *. apply (nearly_weaken _ f (list_max (map depth cs))); [|simpl; lia].
    eapply nearly_bind; [apply traverse_near; eauto|apply Nat.le_refl|]. rewrite O. left. reflexivity.
  - destruct (all "term" t) as [|t0 ts0] eqn:T; [congruence|]. rewrite <- T in *. apply (nearly_weaken _ f (list_max (map depth cs))); [|simpl; lia].
    eapply nearly_bind; [apply traverse_near; eauto|apply Nat.le_refl|]. rewrite O. left. reflexivity.
  - destruct (all "term" t) as [|t0 ts0] eqn:T; [congruence|]. rewrite <- T in *. apply (nearly_weaken _ f (list_max (map depth cs))); [|simpl; lia].
    eapply nearly_bind; [apply traverse_near; eauto|apply Nat.le_refl|]. rewrite O. cbn [cbind String.eqb]. rewrite G. left.
    cbn [term_of]. unfold juxtaposed. reflexivity.
  - rewrite E, N. cbn [deref cbind]. cbn [depth]. fold qdepth. set (d := Nat.max (depth a) (list_max (map qdepth qs))).
    change (map (fun q => match q with QRep _ _ _ => 0 | QList _ _ s _ _ => depth s end) qs) with (map qdepth qs). fold d.
    apply (nearly_weaken _ f d); [|lia]. eapply nearly_bind; [apply named_near; eauto|subst d; lia|].
    assert (D : forall q, In q qs -> qdepth q <= d) by (intros q I; assert (qdepth q <= list_max (map qdepth qs)) by (apply list_max_in, in_map; auto); subst d; lia).
    clearbody d. rewrite <- (rev_involutive (all "quant" t)) in F. cbn [term_of].
    change (fun (q : quant ctext) (t0 : term) => match q with QRep mn mx _ => TQuant t0 mn mx | QList ass sn sep l r => TDelim t0 (named_term sn (term_of sep)) ass l r end) with quanted.
    generalize dependent (named_term name (term_of a)). generalize dependent qs.
    generalize (rev (all "quant" t)). clear - IH.
    assert (Q : forall ns qs acc v, Forall2 reads_quant ns qs -> (forall q, In q qs -> qdepth q <= d) -> nearly f d acc v ->
      nearly f d (fold_left (fun acc q => cbind acc (build_quant ms (build_term ms f) q)) ns acc) (fold_right quanted v (rev qs))).
    { induction ns as [|n ns IHn]; intros qs acc v F D A; inversion F as [|? q ? qs' R F']; subst; [exact A|]. cbn [fold_left rev].
      rewrite fold_right_app. apply IHn; auto; [intros q' I; apply D; now right|].
      eapply nearly_bind; [exact A|apply Nat.le_refl|]. eapply nearly_weaken; [apply quant_near; eauto|]. specialize (D q (or_introl eq_refl)). lia. }
    intros ns qs F D v. rewrite <- (rev_involutive qs). apply Q.
    + rewrite <- (rev_involutive ns). clear - F. revert F. generalize (rev ns). intros l F. induction F; simpl; [constructor|]. apply Forall2_app; auto.
    + intros q I. apply D. now apply in_rev.
    + now left.
Qed.

(** * Danger terms *)

Fixpoint seq_first (ds : list (list string)) (r : list string) : list string :=
  match ds with
  | [] => r
  | d :: ds' => match d with [] => r | _ => seq_first ds' (union r (without ""%string d)) end
  end.
Fixpoint first_refs (c : ctext) : list string :=
  match c with
  | CChoice cs => fold_left union (map first_refs cs) []
  | CSeq cs | CStack cs => seq_first (map first_refs cs) []
  | CLeaf _ a qs =>
      if existsb qasks qs then []
      else match a with
           | CGroup c => union [] (first_refs c)
           | CRule x => [x]
           | _ => match qs with [] => [] | _ => [""%string] end
           end
  | _ => []
  end.

Section DangerStep.
  Variables (rec : anode -> cres (list string)) (f : nat).
  Hypothesis rec_near : forall t c, reads t c -> nearly f (depth c) (rec t) (first_refs c).
  Lemma choice_near : forall ts cs r, Forall2 reads ts cs ->
    nearly f (list_max (map depth cs)) (choice_dangers rec ts r) (fold_left union (map first_refs cs) r).
  Proof.
    intros ts cs r F. revert r. induction F as [|t c ts cs H F IH]; intro r; [now left|]. cbn [choice_dangers map fold_left].
    eapply nearly_bind; [apply rec_near; eauto|apply list_max_in; now left|]. eapply nearly_weaken; [apply IH|simpl; lia].
  Qed.
  Lemma seq_near : forall ts cs r, Forall2 reads ts cs ->
    nearly f (list_max (map depth cs)) (seq_dangers rec ts r) (seq_first (map first_refs cs) r).
  Proof.
    intros ts cs r F. revert r. induction F as [|t c ts cs H F IH]; intro r; [now left|]. cbn [seq_dangers map seq_first].
    eapply nearly_bind; [apply rec_near; eauto|apply list_max_in; now left|]. destruct (first_refs c); [now left|].
    eapply nearly_weaken; [apply IH|simpl; lia].
  Qed.
End DangerStep.

Lemma required_asks : forall ns qs, Forall2 reads_quant ns qs -> required ns = COk (existsb qasks qs).
Proof.
  intros ns qs F. induction F as [|n q ns qs H F IH]; [reflexivity|]. cbn [required existsb].
  destruct H as [n C O M N|n C O M N|n C O N|n mx C O M N B|n m x mn mx C O N M X B B'|n op a nd name sep l r C O A M N R L T];
    rewrite O; cbn [cbind String.eqb Ascii.eqb Bool.eqb qasks orb]; try rewrite M; cbn [cbind]; try rewrite N; auto.
  - rewrite X. cbn [cbind]. destruct (String.eqb x "0"); cbn [negb orb]; auto.
  - destruct (String.eqb op "+"); auto.
Qed.

Lemma danger_near : forall f t c, reads t c -> nearly f (depth c) (danger_terms f t) (first_refs c).
Proof.
  induction f as [|f IH]; intros t c H; [right; split; [reflexivity|lia]|].
  destruct H as [t cs O NE F|t cs O NE F|t cs O NE G F|t n name a qs O E N R F]; cbn [danger_terms]; rewrite O; cbn [cbind String.eqb Ascii.eqb Bool.eqb].
  - eapply nearly_weaken; [apply choice_near; eauto|simpl; lia].
  - destruct (all "term" t) as [|t0 ts0] eqn:T; [congruence|]. rewrite <- T in *. eapply nearly_weaken; [apply seq_near; eauto|simpl; lia].
  - destruct (all "term" t) as [|t0 ts0] eqn:T; [congruence|]. rewrite <- T in *. eapply nearly_weaken; [apply seq_near; eauto|simpl; lia].
  - rewrite E, (required_asks _ _ F). cbn [cbind first_refs]. destruct (existsb qasks qs); [now left|].
    rewrite N. cbn [deref cbind]. destruct R as [n name at_ a I A R]. rewrite A. cbn [deref cbind].
    assert (QS : match all "quant" t with [] => [] | _ => with_ ""%string [] end = match qs with [] => [] | _ => [""%string] end).
    { inversion F; reflexivity. }
    destruct R as [n' s K T B|n' s v K T P B|n' s v K T P B|n' r i K O' I' D B|n' r i d v K O' I' D NE P B|n' r i K O' I' B|n' t' c K O' R B|n' t' c K O' R|n' K B];
      try (unfold unnamed in B; rewrite (proj1 B), (proj2 B), QS; now left).
    + unfold bare in B. rewrite B. destruct (text_string _ _ _ T) as (m & M & S). rewrite M. rewrite M in S. rewrite S. now left.
    + rewrite O'. eapply nearly_bind; [eapply nearly_weaken; [apply (IH t' c R)|]|apply Nat.le_refl|now left]. simpl. lia.
Qed.

(** * Grammars *)

Section Prods.
  Context {St : Type}.
  Variables (act : anode -> St -> cres St).
  Definition prod_ops (k : kind) (n : anode) (st : St) : cres (option stopper * St) :=
    match k with
    | KProd => cbind (act n st) (fun st' => COk (Some NodeExiter, st'))
    | _ => COk (None, st)
    end.
  Definition prod_skips (k : kind) (n : anode) : bool := match k with KProd => true | _ => false end.
  Let quiet (k : kind) (n : anode) (st : St) : cres (option stopper * St) := COk (None, st).
  Lemma prod_calls : forall k n st s st', prod_ops k n st = COk (s, st') ->
    True /\ s = if (negb (leaf_kind k) && prod_skips k n)%bool then Some NodeExiter else None.
  Proof.
    intros k n st s st' H. split; auto. destruct k; simpl in H; try (injection H as <- <-; reflexivity).
    apply cbind_inv in H as (x & X & H). injection H as <- <-. reflexivity.
  Qed.
  Lemma pragma_quiet : forall fuel n st s st', plain_tree n -> walk prod_ops quiet fuel KPragma n st = COk (s, st') -> s = None /\ st' = st.
  Proof.
    intros fuel n st s st' P W. split; [now destruct (walk_calls _ _ (fun _ _ => True) (fun _ => Logic.I) (fun _ _ _ _ _ => Logic.I) prod_calls _ _ _ _ _ _ W)|].
    refine (walk_invariant prod_ops prod_skips (fun _ _ => True) _ _ prod_calls (fun d => d = st) fuel KPragma n st s st' _ eq_refl W); auto.
    intros k m st0 s1 st1 Q -> C.
    inversion Q as [|? ? k3 n3 ? ? _ _ I3 Q3]; subst; [now injection C as <- <-|].
    apply visited_inv in I3 as (name & many & F & V3). simpl in F. destruct F as [F|[F|[]]]; injection F as <- <- <-; simpl in V3.
    - inversion Q3 as [|? ? k4 n4 ? ? _ _ I4 Q4]; subst; [now injection C as <- <-|].
      apply visited_inv in I4 as (name & many & F & V4). simpl in F. destruct F as [F|[]]; injection F as <- <- <-; simpl in V4.
      inversion Q4 as [|? ? k5 n5 ? ? _ _ I5 Q5]; subst; [now injection C as <- <-|].
      apply visited_inv in I5 as (name & many & F & V5). destruct F.
    - destruct (plain_all _ P) as [_ M]. apply one_all in V3. rewrite M in V3. destruct V3.
  Qed.
  Lemma stmt_acts : forall fuel n st s st', plain_tree n -> walk prod_ops quiet fuel KStmt n st = COk (s, st') ->
    s = None /\ match one "prod" n with Some p => act p st = COk st' | None => st' = st end.
  Proof.
    intros [|fuel] n st s st' P W; [discriminate|].
    split; [now destruct (walk_calls _ _ (fun _ _ => True) (fun _ => Logic.I) (fun _ _ _ _ _ => Logic.I) prod_calls _ _ _ _ _ _ W)|].
    cbn [walk] in W. cbn [prod_ops cbind leaf_kind reaction] in W. apply cbind_inv in W as (c & C & W).
    assert (ST : exists st1, walk_children (walk prod_ops quiet fuel) (map (fun m => (KProd, m)) (of_option (one "prod" n))) st = COk st1 /\
      match st1 with inr st2 => st' = st2 | inl r => st' = snd r end).
    { unfold visited in C. cbn [fields flat_map] in C. rewrite app_nil_r in C.
      assert (SK : forall A (f : A -> kind * anode) (o : option A) rest st,
        (forall a, o = Some a -> forall s st', walk prod_ops quiet fuel (fst (f a)) (snd (f a)) st = COk (s, st') -> s = None /\ st' = st) ->
        walk_children (walk prod_ops quiet fuel) (map f (of_option o) ++ rest) st = COk c ->
        walk_children (walk prod_ops quiet fuel) rest st = COk c).
      { intros A f [a|] rest st0 H X; auto. cbn [of_option map app walk_children] in X. destruct (f a) as [k m] eqn:FA.
        apply cbind_inv in X as ((s1 & st1) & W1 & X). destruct (H a eq_refl s1 st1) as [-> ->]; [now rewrite FA|]. exact X. }
      apply SK in C.
      2:{ intros m _ s1 st1 W1. cbn [fst snd] in W1. destruct fuel; [discriminate|]. cbn [walk prod_ops cbind leaf_kind] in W1. now injection W1 as <- <-. }
      apply SK in C.
      2:{ intros m O s1 st1 W1. cbn [fst snd] in W1. eapply pragma_quiet; [|exact W1]. eapply plain_one; eauto. }
      exists c. split; auto. destruct c as [[s1 st1]|st1]; cbn in W; injection W as <- <-; auto. }
    destruct ST as (st1 & C1 & E1). destruct (one "prod" n) as [p|]; cbn [of_option map walk_children] in C1.
    - apply cbind_inv in C1 as ((s2 & st2) & W2 & C1). destruct fuel as [|fuel]; [discriminate|]. cbn [walk] in W2.
      apply cbind_inv in W2 as ((s3 & st3) & D & W2). cbn [prod_ops] in D. apply cbind_inv in D as (x & X & D). injection D as <- <-.
      cbn in W2. injection W2 as <- <-. cbn in C1. injection C1 as <-. subst st'. auto.
    - injection C1 as <-. auto.
  Qed.
  Lemma stmts_act : forall fuel ss st c, Forall plain_tree ss ->
    walk_children (walk prod_ops quiet fuel) (map (fun m => (KStmt, m)) ss) st = COk c ->
    exists st', c = inr st' /\ fold_left (fun acc p => cbind acc (act p)) (flat_map (fun s => of_option (one "prod" s)) ss) (COk st) = COk st'.
  Proof.
    induction ss as [|s ss IH]; intros st c P H; cbn [map walk_children] in H.
    - injection H as <-. exists st. auto.
    - inversion P; subst. apply cbind_inv in H as ((s1 & st1) & W & H). apply stmt_acts in W as [-> W]; auto. cbn [reaction] in H.
      apply IH in H as (st' & -> & F); auto. exists st'. split; auto. cbn [flat_map]. destruct (one "prod" s) as [p|]; cbn [of_option app fold_left cbind].
      + rewrite W. exact F.
      + subst st1. exact F.
  Qed.
  Lemma prods_act : forall fuel n st s st', plain_tree n -> walk prod_ops quiet fuel KGrammar n st = COk (s, st') ->
    fold_left (fun acc p => cbind acc (act p)) (productions n) (COk st) = COk st'.
  Proof.
    intros fuel n st s st' P W. destruct fuel as [|fuel]; [discriminate|]. cbn [walk prod_ops cbind leaf_kind reaction] in W. apply cbind_inv in W as (c & C & W).
    unfold visited in C. cbn [fields flat_map] in C. rewrite app_nil_r in C.
    assert (PS : Forall plain_tree (all "stmt" n)) by (apply Forall_forall; intros s1 J; eapply plain_child; eauto).
    destruct (stmts_act fuel (all "stmt" n) st c PS C) as (st1 & -> & F).
    cbn in W. injection W as <- <-. exact F.
  Qed.
End Prods.

Lemma aset_fresh : forall A x (v : A) m, ~ In x (keys m) -> aset x v m = m ++ [(x, v)].
Proof.
  intros A x v. induction m as [|[k w] m IH]; simpl; intro N; auto. destruct (String.eqb x k) eqn:E; [apply String.eqb_eq in E; subst; tauto|].
  rewrite IH; auto.
Qed.
Lemma aset_all : forall A (xs : list (string * A)) m, NoDup (keys m ++ keys xs) -> fold_left (fun m kv => aset (fst kv) (snd kv) m) xs m = m ++ xs.
Proof.
  intros A. induction xs as [|[x v] xs IH]; simpl; intros m N; [now rewrite app_nil_r|].
  assert (F : ~ In x (keys m)) by (apply NoDup_remove_2 in N; intro I; apply N; apply in_or_app; auto).
  rewrite aset_fresh by auto. rewrite IH; [now rewrite <- app_assoc|]. unfold keys in *. rewrite map_app. simpl. now rewrite <- app_assoc.
Qed.

Lemma nearly_inv : forall A f d (r : cres A) v w, nearly f d r v -> r = COk w -> w = v.
Proof. intros A f d r v w [->|[-> _]] H; congruence. Qed.

(** The graph of a text: for each production the rules it may start with, as the check sees it. *)
Definition text_graph (prods : list (string * list ctext)) : graph :=
  map (fun xcs => (fst xcs, fold_left union (map first_refs (snd xcs)) [])) prods.
Theorem graph_of_text : forall fuel n prods d, plain_tree n -> reads_grammar n prods -> NoDup (keys prods) ->
  collect_dangers fuel n = COk d -> d = text_graph prods.
Proof.
  intros fuel n prods d P R N H. unfold collect_dangers in H. apply cbind_inv in H as ((s & d') & W & H). injection H as <-.
  set (act := fun p (st : graph) => cbind (prod_dangers fuel p) (fun td => cbind (string_of (one "IDENT" p)) (fun name => COk (aset name td st)))).
  assert (W' : walk (prod_ops act) (fun _ _ st => COk (None, st)) fuel KGrammar n [] = COk (s, d')).
  { rewrite <- W. clear. revert n. 
    assert (X : forall ops ops' (ex : kind -> anode -> graph -> cres (option stopper * graph)), (forall k n st, ops k n st = ops' k n st) ->
      forall fuel k n st, walk ops ex fuel k n st = walk ops' ex fuel k n st).
    { intros ops ops' ex E. induction fuel0 as [|f IH]; intros k n st; auto. cbn [walk]. rewrite E. destruct (ops' k n st) as [[s1 st1]| |]; auto. cbn [cbind].
      destruct (leaf_kind k); auto. destruct (reaction s1); auto.
      assert (C : forall l st, walk_children (walk ops ex f) l st = walk_children (walk ops' ex f) l st).
      { induction l as [|[k1 n1] l IHl]; intro st2; auto. cbn [walk_children]. rewrite IH. destruct (walk ops' ex f k1 n1 st2) as [[s2 st3]| |]; auto. cbn [cbind].
        destruct (reaction s2); auto. }
      rewrite C. reflexivity. }
    intro n. apply X. intros k m st. destruct k; auto. unfold prod_ops, act. destruct (prod_dangers fuel m); auto. cbn [cbind].
    destruct (string_of (one "IDENT" m)); auto. }
  apply prods_act in W'; auto. unfold reads_grammar in R. fold (productions n) in R.
  assert (G : forall ps prods st d', Forall2 reads_prod ps prods -> fold_left (fun acc p => cbind acc (act p)) ps (COk st) = COk d' ->
    d' = fold_left (fun m kv => aset (fst kv) (snd kv) m) (text_graph prods) st).
  { clear. induction ps as [|p ps IH]; intros prods st d' F H; inversion F as [|? [x cs] ? prods' [X C] F']; subst; [now injection H as <-|].
    cbn [fold_left text_graph map] in H |- *.
    assert (Z : exists st1, act p st = COk st1).
    { cbn [cbind] in H. destruct (act p st); [eauto| |]; exfalso; clear - H; induction ps; simpl in H; [discriminate|auto|discriminate|auto]. }
    destruct Z as (st1 & Z). cbn [cbind] in H. rewrite Z in H. rewrite (IH _ _ _ F' H). unfold text_graph. f_equal.
    unfold act in Z. apply cbind_inv in Z as (td & TD & Z). cbn [fst snd] in X, C. rewrite X in Z. cbn [cbind] in Z. injection Z as <-. cbn [fst snd]. f_equal.
    unfold prod_dangers in TD. eapply nearly_inv; [|exact TD]. apply (choice_near _ fuel (danger_near fuel)). exact C. }
  rewrite (G _ _ _ _ R W'). rewrite aset_all; auto. simpl. unfold text_graph, keys in *. rewrite map_map. cbn [fst]. exact N.
Qed.

(** The grammar built from a text. *)
Theorem grammar_of_text : forall fuel n prods g, reads_grammar n prods -> NoDup (keys prods) ->
  forall ms, build_grammar (build_term ms fuel) n = COk g -> g = grammar_text prods.
Proof.
  intros fuel n prods g R N ms H. unfold build_grammar in H. unfold reads_grammar in R. revert R H. generalize (all "stmt" n). intros ss R H.
  assert (G : forall ss prods acc g, Forall2 reads_prod (flat_map (fun s => match one "prod" s with Some p => [p] | None => [] end) ss) prods ->
    fold_left (fun acc stmt => cbind acc (fun g => match one "prod" stmt with
      | None => COk g
      | Some prod => cbind (build_prod (build_term ms fuel) prod) (fun t => cbind (string_of (one "IDENT" prod)) (fun name => COk (aset name t g)))
      end)) ss acc = COk g ->
    exists g0, acc = COk g0 /\ g = fold_left (fun m kv => aset (fst kv) (snd kv) m) (grammar_text prods) g0).
  { clear. induction ss as [|s ss IH]; simpl; intros prods acc g F H.
    - inversion F; subst. exists g. auto.
    - destruct (one "prod" s) as [p|]; cbn [app] in F.
      + inversion F as [|? [x cs] ? prods' [X C] F']; subst. destruct (IH _ _ _ F' H) as (g1 & A & K). apply cbind_inv in A as (g0 & -> & A).
        exists g0. split; auto. apply cbind_inv in A as (t & T & A). cbn [fst snd] in X, C. rewrite X in A. cbn [cbind] in A. injection A as <-.
        cbn [grammar_text map fold_left fst snd]. rewrite K. unfold grammar_text. do 2 f_equal.
        unfold build_prod in T. apply cbind_inv in T as (ts & TS & T). injection T as <-.
        assert (ts = map term_of cs) by (eapply nearly_inv; [|exact TS]; apply (traverse_near _ fuel); auto; apply build_near). subst. reflexivity.
      + destruct (IH _ _ _ F H) as (g1 & A & K). apply cbind_inv in A as (g0 & -> & A). injection A as <-. eauto. }
  destruct (G _ _ _ _ R H) as (g0 & E & K). injection E as <-. rewrite K. rewrite aset_all; auto.
  simpl. unfold grammar_text, keys in *. rewrite map_map. cbn [fst]. exact N.
Qed.
