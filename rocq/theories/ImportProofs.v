(** Proofs about imports. *)
From Verif Require Import Base Scanner Syntax Engine Resolve Compile Parse Ast AstProofs WbnfAst Walker WalkerSpec WalkerProofs Build Recursion Validate Front ImportSpec.

(** ** The walk over the imports *)
Section Walk.
  Context {St : Type}.
  Variable act : anode -> St -> cres (option stopper * St).
  Hypothesis act_soft : forall m st s st', act m st = COk (Some s, st') -> exit_node s = true.
  Definition at_import (k : kind) (n : anode) (st : St) : cres (option stopper * St) := match k with KPragmaImport => act n st | _ => COk (None, st) end.
  Definition at_exit (k : kind) (n : anode) (st : St) : cres (option stopper * St) := COk (None, st).
  Fixpoint act_all (ms : list anode) (st : St) : cres St :=
    match ms with [] => COk st | m :: ms => cbind (act m st) (fun '(_, st) => act_all ms st) end.

  Lemma act_all_app : forall a b st, act_all (a ++ b) st = cbind (act_all a st) (act_all b).
  Proof. induction a as [|m a IH]; intros b st; simpl; auto. destruct (act m st) as [[s st']| |]; simpl; auto. Qed.
  Lemma import_events_app : forall a b, import_events (a ++ b) = import_events a ++ import_events b.
  Proof. intros. apply flat_map_app. Qed.
  Lemma walk_eq : forall fuel k n st, walk at_import at_exit (S fuel) k n st =
    cbind (at_import k n st) (fun '(s, st) => if leaf_kind k then COk (s, st) else
      match reaction s with Some r => COk (r, st) | None =>
        cbind (walk_children (walk at_import at_exit fuel) (visited k n) st) (fun c => match c with inl r => COk r | inr st => COk (None, st) end) end).
  Proof. reflexivity. Qed.

  (** The path of an import has no imports. *)
  Lemma under_import : forall n evs, tours (fun _ _ => false) (expected KPragmaImport n) evs -> import_events evs = [].
  Proof.
    intros n evs T. rewrite expected_visited in T.
    assert (Q : forall l, Forall (fun kn : kind * anode => fst kn = KPragmaImportPath) l -> forall evs, tours (fun _ _ => false) l evs -> import_events evs = []).
    { induction l as [|[k m] l IH]; intros F evs0 T0; inversion T0; subst; auto. inversion F; subst. cbn [fst] in *. subst.
      rewrite import_events_app, (IH ltac:(assumption) _ ltac:(eassumption)), app_nil_r.
      match goal with T1 : tour _ KPragmaImportPath _ _ |- _ => inversion T1; subst; auto end.
      match goal with T1 : tours _ (expected _ _) _ |- _ => rewrite expected_visited in T1; cbn in T1; inversion T1; subst end. reflexivity. }
    refine (Q _ _ _ T). unfold visited. cbn [fields flat_map]. rewrite app_nil_r. apply Forall_forall. intros x I. apply in_map_iff in I as (m & <- & _). reflexivity.
  Qed.

  Lemma walk_imports : forall fuel k n evs st, height n < fuel -> tour (fun _ _ => false) k n evs ->
    walk at_import at_exit fuel k n st = cbind (act_all (import_events evs) st) (fun st => COk (None, st)).
  Proof.
    induction fuel as [|fuel IH]; intros k n evs st L T; [lia|]. rewrite walk_eq.
    assert (Q : forall l evs st, (forall k' m, In (k', m) l -> height m < fuel) -> tours (fun _ _ => false) l evs ->
      walk_children (walk at_import at_exit fuel) l st = cbind (act_all (import_events evs) st) (fun st => COk (inr st))).
    { induction l as [|[k' m] l IHl]; intros evs0 st0 B T0; inversion T0; subst; [reflexivity|]. cbn [walk_children].
      rewrite (IH k' m evs1 st0); [|apply (B k'); now left|auto]. rewrite import_events_app, act_all_app.
      destruct (act_all (import_events evs1) st0) as [st1| |]; cbn [cbind]; auto. apply IHl; auto. intros; eapply B; right; eauto. }
    assert (V : forall k' m, In (k', m) (visited k n) -> height m < fuel) by (intros k' m H; apply visited_below in H; lia).
    inversion T as [? ? TK|? ? TK SK|? ? evs' TK SK TS]; subst; [|discriminate|].
    - rewrite <- leaf_token in TK. rewrite TK. destruct k; try discriminate; reflexivity.
    - pose proof TS as TS'. rewrite expected_visited in TS'. rewrite <- leaf_token in TK. rewrite TK.
      change (import_events (Enter k n :: evs' ++ [Exit k n])) with ((match k with KPragmaImport => [n] | _ => [] end) ++ import_events (evs' ++ [Exit k n])).
      rewrite import_events_app. change (import_events [Exit k n]) with (@nil anode). rewrite app_nil_r.
      destruct k; cbn [at_import cbind reaction app]; try (rewrite (Q _ _ _ V TS'); destruct (act_all (import_events evs') st); reflexivity).
      rewrite (under_import _ _ TS). cbn [act_all]. destruct (act n st) as [[[s|] st']| |] eqn:A; cbn [cbind]; auto.
      + unfold reaction. rewrite (act_soft _ _ _ _ A). reflexivity.
      + cbn [reaction]. rewrite (Q _ _ _ V TS'), (under_import _ _ TS). reflexivity.
  Qed.

  Lemma tour_any : forall n k, exists evs, tour (fun _ _ => false) k n evs.
  Proof.
    intros n k. destruct (walk_tour (St := nat) (fun _ _ => false) (fun st _ => st) (S (height n)) k n 0) as (evs & T & _); [lia|]. eauto.
  Qed.

  (** Whatever the fuel, a walk that ends has called back for all imports. *)
  Lemma walk_imports_inv : forall fuel k n st s st', walk at_import at_exit fuel k n st = COk (s, st') ->
    s = None /\ exists evs, tour (fun _ _ => false) k n evs /\ act_all (import_events evs) st = COk st'.
  Proof.
    induction fuel as [|fuel IH]; intros k n st s st' W; [discriminate|]. rewrite walk_eq in W.
    assert (Q : forall l st c, walk_children (walk at_import at_exit fuel) l st = COk c ->
      exists st' evs, c = inr st' /\ tours (fun _ _ => false) l evs /\ act_all (import_events evs) st = COk st').
    { induction l as [|[k' m] l IHl]; intros st0 c H; cbn [walk_children] in H.
      - inversion H; subst. exists st0, []. repeat split. constructor.
      - apply cbind_inv in H as [[s1 st1] [H1 H]]. apply IH in H1 as (-> & evs1 & T1 & A1). cbn [reaction] in H.
        apply IHl in H as (st2 & evs2 & -> & T2 & A2). exists st2, (evs1 ++ evs2). split; auto. split; [constructor; auto|].
        rewrite import_events_app, act_all_app, A1. exact A2. }
    destruct (tour_any n k) as [evs T]. apply cbind_inv in W as [[s1 st1] [A W]].
    destruct (leaf_kind k) eqn:LK.
    - assert (s1 = None /\ st1 = st) as [-> ->] by (destruct k; cbn [at_import] in A; try discriminate; inversion A; auto).
      inversion W; subst. split; auto. exists [Enter k n]. split; [constructor; now rewrite <- leaf_token|]. destruct k; try discriminate; reflexivity.
    - assert (NT : token_kind k = false) by now rewrite <- leaf_token.
      inversion T as [|? ? TK SK|? ? evs' TK SK TS]; subst; [congruence|discriminate|].
      destruct (reaction s1) as [r|] eqn:RS.
      + inversion W; subst; clear W.
        destruct k; cbn [at_import] in A; try (inversion A; subst; discriminate).
        destruct s1 as [s1|]; [|discriminate]. pose proof (act_soft _ _ _ _ A) as X. unfold reaction in RS. rewrite X in RS. inversion RS; subst. split; auto.
        eexists. split; [exact T|]. change (act_all (import_events (Enter KPragmaImport n :: evs' ++ [Exit KPragmaImport n])) st) with
          (cbind (act n st) (fun '(_, st) => act_all (import_events (evs' ++ [Exit KPragmaImport n])) st)). rewrite A. cbn [cbind].
        rewrite import_events_app, (under_import _ _ TS). reflexivity.
      + apply cbind_inv in W as [c [H W]]. apply Q in H as (st2 & evs2 & -> & T2 & A2). inversion W; subst; clear W. split; auto.
        exists (Enter k n :: evs2 ++ [Exit k n]). split; [apply tour_node; auto; now rewrite expected_visited|].
        change (import_events (Enter k n :: evs2 ++ [Exit k n])) with ((match k with KPragmaImport => [n] | _ => [] end) ++ import_events (evs2 ++ [Exit k n])).
        rewrite import_events_app. change (import_events [Exit k n]) with (@nil anode). rewrite app_nil_r.
        rewrite act_all_app. assert (E : act_all match k with KPragmaImport => [n] | _ => [] end st = COk st1).
        { destruct k; cbn [at_import act_all] in *; try (inversion A; subst; reflexivity). rewrite A. reflexivity. }
        rewrite E. exact A2.
  Qed.
End Walk.

(** ** Loading *)
Section Load.
  Variables (w : world) (wbnf : parsers) (fuel : nat).
  Notation reads := (reads w wbnf fuel).
  Notation names_file := (names_file w).
  Notation imports := (imports w).
  Notation opens := (opens w wbnf fuel).
  Notation contents := (contents w wbnf fuel).
  Notation contents_all := (contents_all w wbnf fuel).
  Notation load d := (load_grammar_file w wbnf d fuel).

  Lemma one_of_labelled : forall name n m, one name n = Some m <-> exists more, labelled name n = m :: more.
  Proof.
    intros name n m. pose proof (one_labelled name n) as H. destruct (one name n) as [x|]; destruct (labelled name n) as [|y l]; cbn in H; try discriminate.
    - inversion H; subst. split; [intros E; inversion E; subst; eauto|intros (more & E); inversion E; auto].
    - split; [discriminate|intros (more & E); discriminate].
  Qed.
  Lemma all_tokens_spec : forall n toks, all_tokens n = COk toks <-> Forall2 (fun leaf tok => exists b, node_text leaf = COk b /\ tok = sb b) (labelled "" n) toks.
  Proof.
    intros n. unfold all_tokens. rewrite all_labelled. induction (labelled "" n) as [|x l IH]; intros toks; simpl.
    - split; intros H; inversion H; subst; auto.
    - split; intros H.
      + apply cbind_inv in H as [b [B H]]. apply cbind_inv in H as [ts [H E]]. inversion E; subst. constructor; [eauto|]. now apply IH.
      + inversion H as [|? y ? ts (b & B & ->) F]; subst. rewrite B. cbn [cbind]. apply IH in F. rewrite F. reflexivity.
  Qed.
  Definition resolved (from : string) (toks : list string) : string :=
    match w_resolve w with Some f => f from (w_join w toks) | None => w_join w toks end.
  Lemma names_file_spec : forall from m p, names_file from m p <->
    exists path toks, one "path" m = Some path /\ all_tokens path = COk toks /\ p = w_clean w (resolved from toks).
  Proof.
    intros from m p. split.
    - intros (path & more & toks & L & F & ->). exists path, toks. rewrite one_of_labelled, all_tokens_spec. eauto.
    - intros (path & toks & L & F & ->). rewrite one_of_labelled in L. destruct L as (more & L). rewrite all_tokens_spec in F. exists path, more, toks. auto.
  Qed.
  Lemma names_file_det : forall from m p q, names_file from m p -> names_file from m q -> p = q.
  Proof.
    intros from m p q H1 H2. rewrite names_file_spec in *. destruct H1 as (a & t & A & T & ->), H2 as (a' & t' & A' & T' & ->).
    assert (a = a') by congruence. subst. assert (t = t') by congruence. subst. auto.
  Qed.
  Lemma imports_det : forall from n ps qs, imports from n ps -> imports from n qs -> ps = qs.
  Proof.
    intros from n ps qs (ms & (evs & T & ->) & F) (ms' & (evs' & T' & ->) & F'). rewrite (tour_det _ _ _ _ T _ T') in F'.
    revert qs F'. induction F as [|m p ms ps H F IH]; intros qs F'; inversion F'; subst; auto. f_equal; eauto using names_file_det.
  Qed.

  Definition act (ld : string -> list (string * anode) -> cres ((front_error + anode) * list (string * anode))) from := import_node w ld from.
  Lemma act_eq : forall ld from m st, act ld from m st =
    cbind (deref (one "path" m)) (fun path => cbind (all_tokens path) (fun toks =>
      cbind (ld (resolved from toks) (l_imports st)) (fun '(r, imps) =>
      match r with
      | inl e => COk (Some Aborter, mkLoading (l_node st) (Some e) imps)
      | inr nested => cbind (merge_nodes (l_node st) nested) (fun m => COk (None, mkLoading m (l_err st) imps))
      end))).
  Proof. intros. unfold act, import_node, resolved. destruct (deref (one "path" m)); cbn [cbind]; auto. Qed.
  Lemma act_is_soft : forall ld from m st s st', act ld from m st = COk (Some s, st') -> exit_node s = true.
  Proof.
    intros ld from m st s st' H. rewrite act_eq in H. apply cbind_inv in H as [path [_ H]]. apply cbind_inv in H as [toks [_ H]].
    apply cbind_inv in H as [[r imps] [_ H]]. destruct r; [inversion H; reflexivity|]. apply cbind_inv in H as [x [_ H]]. discriminate.
  Qed.
  Lemma act_inv : forall ld from m st s st', act ld from m st = COk (s, st') -> exists q r imps,
    names_file from m (w_clean w q) /\ ld q (l_imports st) = COk (r, imps) /\ l_imports st' = imps /\
    match r with
    | inl e => l_err st' = Some e
    | inr g => l_err st' = l_err st /\ statements (l_node st') = statements (l_node st) ++ statements g
    end.
  Proof.
    intros ld from m st s st' H. rewrite act_eq in H. apply cbind_inv in H as [path [P H]]. apply cbind_inv in H as [toks [T H]].
    apply cbind_inv in H as [[r imps] [L H]]. exists (resolved from toks), r, imps. split.
    { apply names_file_spec. exists path, toks. unfold deref in P. destruct (one "path" m); inversion P; subst; auto. }
    split; auto. destruct r as [e|g].
    - inversion H; subst. auto.
    - apply cbind_inv in H as [x [M H]]. inversion H; subst. cbn. split; auto. split; auto. unfold merge_nodes in M.
      destruct (l_node st) as [b| |]; try discriminate. destruct g as [b'| |]; try discriminate. destruct (lookup "stmt" b) as [[|l]|] eqn:E; try discriminate.
      inversion M; subst. unfold statements. rewrite lookup_aset_eq, E. unfold get_many. destruct (lookup "stmt" b') as [[]|]; auto.
  Qed.

  Lemma make_eq : forall ld from txt imps, make_grammar w wbnf ld fuel from txt imps =
    cbind (parse_text w wbnf fuel from txt) (fun r => match r with
      | inl e => COk (inl e, imps)
      | inr n => cbind (walk (at_import (act ld from)) at_exit fuel KGrammar n (mkLoading n None imps)) (fun '(_, st) =>
          COk (match l_err st with Some e => inl e | None => inr (l_node st) end, l_imports st))
      end).
  Proof. reflexivity. Qed.
  Lemma load_eq : forall d q imps, load (S d) q imps =
    match lookup (w_clean w q) imps with
    | Some g => COk (inr g, imps)
    | None => match w_read w (w_clean w q) with
              | None => COk (inl NoFile, imps)
              | Some txt => cbind (make_grammar w wbnf (load d) fuel (w_clean w q) txt imps) (fun '(r, imps) =>
                  match r with inl e => COk (inl e, imps) | inr g => COk (inr g, aset (w_clean w q) g imps) end)
              end
    end.
  Proof. reflexivity. Qed.

  (** *** What is loaded *)
  Let any (n : anode) : Prop := True.
  Definition cache_ok (imps : list (string * anode)) : Prop :=
    forall p g, lookup p imps = Some g -> exists txt, w_read w p = Some txt /\ contents any p txt (statements g).
  Definition loads_ok (ld : string -> list (string * anode) -> cres ((front_error + anode) * list (string * anode))) : Prop :=
    forall q imps r imps', ld q imps = COk (r, imps') -> cache_ok imps -> cache_ok imps' /\
      forall g, r = inr g -> exists txt, w_read w (w_clean w q) = Some txt /\ contents any (w_clean w q) txt (statements g).

  Lemma act_all_ok : forall ld from, loads_ok ld -> forall ms st st', act_all (act ld from) ms st = COk st' -> cache_ok (l_imports st) ->
    cache_ok (l_imports st') /\ (l_err st' = None -> l_err st = None /\
      exists ps ss, Forall2 (names_file from) ms ps /\ contents_all any ps ss /\ statements (l_node st') = statements (l_node st) ++ ss).
  Proof.
    intros ld from LD. induction ms as [|m ms IH]; intros st st' H C; cbn [act_all] in H.
    - inversion H; subst. split; auto. intros E. split; auto. exists [], []. rewrite app_nil_r. repeat split; constructor.
    - apply cbind_inv in H as [[s st1] [A H]]. apply act_inv in A as (q & r & imps & NF & L & <- & R).
      destruct (LD _ _ _ _ L C) as (C1 & G). destruct (IH _ _ H C1) as (C2 & REST). split; auto. intros E. destruct (REST E) as (E1 & ps & ss & F & CA & ST).
      destruct r as [e|g]; [congruence|]. destruct R as [R1 R2]. split; [congruence|]. destruct (G _ eq_refl) as (txt & RD & CT).
      exists (w_clean w q :: ps), (statements g ++ ss). split; [constructor; auto|]. split; [econstructor; eauto|]. rewrite ST, R2, app_assoc. reflexivity.
  Qed.
  Lemma make_ok : forall ld, loads_ok ld -> forall from txt imps r imps', make_grammar w wbnf ld fuel from txt imps = COk (r, imps') -> cache_ok imps ->
    cache_ok imps' /\ forall g, r = inr g -> contents any from txt (statements g).
  Proof.
    intros ld LD from txt imps r imps' H C. rewrite make_eq in H. apply cbind_inv in H as [[e|n] [P H]].
    - inversion H; subst. split; auto. discriminate.
    - apply cbind_inv in H as [[s st] [W H]]. apply walk_imports_inv in W as (-> & evs & T & A); [|apply act_is_soft].
      destruct (act_all_ok _ _ LD _ _ _ A C) as (C1 & REST). inversion H; subst; clear H. split; auto. intros g E.
      destruct (l_err st) eqn:ER; [discriminate|]. inversion E; subst. destruct (REST eq_refl) as (_ & ps & ss & F & CA & ST). rewrite ST. cbn [l_node].
      econstructor; eauto. + exact I. + exists (import_events evs). split; auto. exists evs. auto.
  Qed.
  Lemma load_ok : forall d, loads_ok (load d).
  Proof.
    induction d as [|d IH]; intros q imps r imps' H C; [discriminate|]. rewrite load_eq in H. destruct (lookup (w_clean w q) imps) as [g0|] eqn:LK.
    - inversion H; subst. split; auto. intros g E. inversion E; subst. auto.
    - destruct (w_read w (w_clean w q)) as [txt|] eqn:RD; [|inversion H; subst; split; [auto|discriminate]].
      apply cbind_inv in H as [[r1 imps1] [M H]]. destruct (make_ok _ IH _ _ _ _ _ M C) as (C1 & G). destruct r1 as [e|g1]; inversion H; subst; clear H.
      + split; auto. discriminate.
      + specialize (G _ eq_refl). split.
        * intros p g L. destruct (String.eqb_spec p (w_clean w q)) as [->|N]; [rewrite lookup_aset_eq in L; inversion L; subst; eauto|].
          rewrite lookup_aset_neq in L by congruence. auto.
        * intros g E. inversion E; subst. eauto.
  Qed.
  Theorem text_contents : forall d txt n, load_text w wbnf d fuel txt = COk (inr n) -> contents any "" txt (statements n).
  Proof.
    intros d txt n H. unfold load_text in H. apply cbind_inv in H as [[r imps] [M H]]. inversion H; subst.
    destruct (make_ok _ (load_ok d) _ _ _ _ _ M) as (_ & G); auto. intros p g L. discriminate.
  Qed.

  Scheme contents_mut := Induction for ImportSpec.contents Sort Prop with contents_all_mut := Induction for ImportSpec.contents_all Sort Prop.
  Lemma contents_det : forall good from txt ss, contents good from txt ss -> forall ss', contents good from txt ss' -> ss' = ss.
  Proof.
    intros good. apply (contents_mut w wbnf fuel good (fun from txt ss _ => forall ss', contents good from txt ss' -> ss' = ss)
      (fun ps ss _ => forall ss', contents_all good ps ss' -> ss' = ss)).
    - intros from txt n ps ss R G I CA IH ss' C. inversion C as [? ? n' ps' ss2 R' G' I' CA']; subst. unfold ImportSpec.reads in *.
      assert (n' = n) by congruence. subst. rewrite (imports_det _ _ _ _ I' I) in CA'. f_equal. auto.
    - intros ss' H. inversion H. auto.
    - intros p txt ps ss ss' R C IH CA IHA ss2 H. inversion H; subst. assert (txt0 = txt) by congruence. subst. f_equal; auto.
  Qed.

  (** *** Cycles *)
  Definition below (q p : string) : Prop := opens p q.
  Definition founded (imps : list (string * anode)) : Prop := forall p, In p (keys imps) -> Acc below p.
  Definition loads_founded (ld : string -> list (string * anode) -> cres ((front_error + anode) * list (string * anode))) : Prop :=
    forall q imps r imps', ld q imps = COk (r, imps') -> founded imps -> founded imps' /\ Acc below (w_clean w q).
  Lemma act_all_founded : forall ld from, loads_founded ld -> forall ms st st', act_all (act ld from) ms st = COk st' -> founded (l_imports st) ->
    founded (l_imports st') /\ exists ps, Forall2 (names_file from) ms ps /\ Forall (Acc below) ps.
  Proof.
    intros ld from LD. induction ms as [|m ms IH]; intros st st' H C; cbn [act_all] in H.
    - inversion H; subst. split; auto. exists []. split; constructor.
    - apply cbind_inv in H as [[s st1] [A H]]. apply act_inv in A as (q & r & imps & NF & L & <- & R).
      destruct (LD _ _ _ _ L C) as (C1 & G). destruct (IH _ _ H C1) as (C2 & ps & F & FA). split; auto. exists (w_clean w q :: ps). split; constructor; auto.
  Qed.
  Lemma make_founded : forall ld, loads_founded ld -> forall from txt imps r imps', make_grammar w wbnf ld fuel from txt imps = COk (r, imps') -> founded imps ->
    founded imps' /\ forall n ps q, reads from txt n -> imports from n ps -> In q ps -> Acc below q.
  Proof.
    intros ld LD from txt imps r imps' H C. rewrite make_eq in H. apply cbind_inv in H as [[e|n] [P H]].
    - inversion H; subst. split; auto. intros n ps q R. unfold ImportSpec.reads in R. congruence.
    - apply cbind_inv in H as [[s st] [W H]]. apply walk_imports_inv in W as (-> & evs & T & A); [|apply act_is_soft].
      destruct (act_all_founded _ _ LD _ _ _ A C) as (C1 & ps & F & FA). inversion H; subst; clear H. split; auto.
      intros n' ps' q R I J. unfold ImportSpec.reads in R. assert (n' = n) by congruence. subst.
      assert (I2 : imports from n ps) by (exists (import_events evs); split; auto; exists evs; auto). rewrite (imports_det _ _ _ _ I I2) in J.
      rewrite Forall_forall in FA. auto.
  Qed.
  Lemma keys_aset_in : forall A k (v : A) l x, In x (keys (aset k v l)) -> x = k \/ In x (keys l).
  Proof.
    induction l as [|[k' v'] l IH]; intros x H; simpl in H.
    - destruct H as [H|[]]. auto.
    - destruct (String.eqb k k') eqn:E; simpl in H; destruct H as [H|H]; simpl; auto. apply IH in H. tauto.
  Qed.
  Lemma load_founded : forall d, loads_founded (load d).
  Proof.
    induction d as [|d IH]; intros q imps r imps' H C; [discriminate|]. rewrite load_eq in H. destruct (lookup (w_clean w q) imps) as [g0|] eqn:LK.
    - inversion H; subst. split; auto. apply C. apply lookup_In in LK. apply in_map_iff. exists (w_clean w q, g0). auto.
    - destruct (w_read w (w_clean w q)) as [txt|] eqn:RD.
      + apply cbind_inv in H as [[r1 imps1] [M H]]. destruct (make_founded _ IH _ _ _ _ _ M C) as (C1 & G).
        assert (A : Acc below (w_clean w q)). { constructor. intros y (txt' & n & ps & RD' & R & I & J). assert (txt' = txt) by congruence. subst. eauto. }
        split; auto. destruct r1 as [e|g1]; inversion H; subst; auto. intros p K. apply keys_aset_in in K as [->|K]; auto.
      + inversion H; subst. split; auto. constructor. intros y (txt' & n & ps & RD' & _). congruence.
  Qed.
  Theorem load_well_founded : forall d txt r, load_text w wbnf d fuel txt = COk r -> forall p, needs w wbnf fuel txt p -> Acc below p.
  Proof.
    intros d txt r H. unfold load_text in H. apply cbind_inv in H as [[r1 imps] [M H]].
    destruct (make_founded _ (load_founded d) _ _ _ _ _ M) as (_ & G); [intros p []|]. intros p N. induction N as [n ps p R I J|p q N IH O]; eauto.
    destruct IH as [IH]. apply IH. exact O.
  Qed.
  Lemma acc_no_route : forall p, Acc below p -> ~ route w wbnf fuel p p.
  Proof.
    assert (T : forall p q, route w wbnf fuel p q -> forall x, route w wbnf fuel q x -> route w wbnf fuel p x).
    { induction 1; intros x X; [eapply route_more; eauto|]. eapply route_more; eauto. }
    induction 1 as [p A IH]. intros R. inversion R as [? q O|? q r O R']; subst.
    - apply (IH p O). exact R.
    - apply (IH q O). eapply T; [exact R'|]. constructor. exact O.
  Qed.
  Theorem cycles_never_load : forall d txt p r, needs w wbnf fuel txt p -> route w wbnf fuel p p -> load_text w wbnf d fuel txt <> COk r.
  Proof. intros d txt p r N R H. eapply acc_no_route; [|exact R]. eapply load_well_founded; eauto. Qed.

  (** *** Loading works *)
  Definition cache_fits (good : anode -> Prop) (imps : list (string * anode)) : Prop :=
    forall p g txt ss, lookup p imps = Some g -> w_read w p = Some txt -> contents good p txt ss -> statements g = ss /\ exists b l, g = ABranch b /\ lookup "stmt"%string b = Some (Many l).
  Notation good := (sound fuel).
  Lemma merge_ok : forall b l b' , lookup "stmt"%string b = Some (Many l) -> exists b2, merge_nodes (ABranch b) (ABranch b') = COk (ABranch b2) /\ lookup "stmt"%string b2 = Some (Many (l ++ statements (ABranch b'))).
  Proof.
    intros b l b' L. eexists. cbn [merge_nodes]. rewrite L. split; [reflexivity|]. rewrite lookup_aset_eq. unfold statements, get_many. reflexivity.
  Qed.
  Definition ready (ld : string -> list (string * anode) -> cres ((front_error + anode) * list (string * anode))) (p : string) (ss : list anode) : Prop :=
    forall q imps, w_clean w q = p -> cache_fits good imps -> exists g imps' b l, ld q imps = COk (inr g, imps') /\ cache_fits good imps' /\
      g = ABranch b /\ lookup "stmt"%string b = Some (Many l) /\ statements g = ss.
  Lemma make_ready : forall d from txt n ps sss, reads from txt n -> good n -> imports from n ps -> Forall2 (ready (load d)) ps sss -> forall imps, cache_fits good imps ->
    exists g imps' b l, make_grammar w wbnf (load d) fuel from txt imps = COk (inr g, imps') /\ cache_fits good imps' /\
      g = ABranch b /\ lookup "stmt"%string b = Some (Many l) /\ statements g = statements n ++ concat sss.
  Proof.
    intros d from txt n ps sss R [HT (b0 & l0 & -> & L0)] (ms & (evs & T & ->) & F) RS imps CF. rewrite make_eq. unfold ImportSpec.reads in R. rewrite R. cbn [cbind].
    rewrite (walk_imports _ (act_is_soft _ _) _ _ _ _ _ HT T). clear R HT T.
    assert (Q : forall st b l, l_node st = ABranch b -> lookup "stmt"%string b = Some (Many l) -> cache_fits good (l_imports st) -> l_err st = None ->
      exists st' b' l', act_all (act (load d) from) (import_events evs) st = COk st' /\ l_node st' = ABranch b' /\ lookup "stmt"%string b' = Some (Many l') /\
        cache_fits good (l_imports st') /\ l_err st' = None /\ l' = l ++ concat sss).
    { clear L0 imps CF b0 l0. revert sss RS. induction F as [|m p ms ps NF F IH]; intros sss RS st b l N L CF E; inversion RS as [|? ss ? sss' RD RS']; subst.
      - exists st, b, l. cbn. rewrite app_nil_r. auto 10.
      - apply names_file_spec in NF as (path & toks & P & TK & ->).
        destruct (RD _ _ eq_refl CF) as (g & imps' & bg & lg & LD & CF' & -> & LG & <-). destruct (merge_ok _ _ bg L) as (b2 & MG & L2).
        destruct (IH _ RS' (mkLoading (ABranch b2) (l_err st) imps') b2 _ eq_refl L2 CF' E) as (st' & b' & l' & A & N' & L' & C' & E' & ->).
        exists st', b', (l ++ concat (statements (ABranch bg) :: sss')). cbn [act_all]. rewrite act_eq, P. cbn [deref cbind]. rewrite TK. cbn [cbind]. rewrite LD. cbn [cbind].
        rewrite N, MG. cbn [cbind]. rewrite <- app_assoc in *. auto 10. }
    destruct (Q (mkLoading (ABranch b0) None imps) b0 l0 eq_refl L0 CF eq_refl) as (st' & b' & l' & A & N' & L' & C' & E' & ->).
    rewrite A. cbn [cbind]. rewrite E', N'. exists (ABranch b'), (l_imports st'), b', (l0 ++ concat sss). unfold statements. rewrite L', L0. auto 10.
  Qed.
  Lemma contents_ready : forall from txt ss, contents good from txt ss ->
    exists d0, forall d, d0 <= d -> exists n ps sss, reads from txt n /\ good n /\ imports from n ps /\ Forall2 (ready (load d)) ps sss /\ ss = statements n ++ concat sss.
  Proof.
    apply (contents_mut w wbnf fuel good
      (fun from txt ss _ => exists d0, forall d, d0 <= d -> exists n ps sss, reads from txt n /\ good n /\ imports from n ps /\ Forall2 (ready (load d)) ps sss /\ ss = statements n ++ concat sss)
      (fun ps ss _ => exists d0, forall d, d0 <= d -> exists sss, Forall2 (ready (load d)) ps sss /\ ss = concat sss)).
    - intros from txt n ps ss R G I CA (d0 & H). exists d0. intros d D. destruct (H d D) as (sss & F & ->). eauto 10.
    - exists 0. intros d _. exists []. auto.
    - intros p txt ps ss ss' R C (d0 & H) CA (d1 & H1). exists (S (Nat.max d0 d1)). intros d D. destruct (H1 d ltac:(lia)) as (sss & F & ->).
      exists (ss :: sss). split; auto. constructor; auto. destruct d as [|d]; [lia|]. destruct (H d ltac:(lia)) as (n & ps' & sss' & RD & G & I & F' & ->).
      intros q imps <- CF. rewrite load_eq. destruct (lookup (w_clean w q) imps) as [g|] eqn:LK.
      + destruct (CF _ _ _ _ LK R C) as (ST & b & l & -> & L). exists (ABranch b), imps, b, l. auto.
      + rewrite R. destruct (make_ready _ _ _ _ _ _ RD G I F' _ CF) as (g & imps' & b & l & M & CF' & -> & L & ST). rewrite M. cbn [cbind].
        exists (ABranch b), (aset (w_clean w q) (ABranch b) imps'), b, l. split; auto. split; auto.
        intros p0 g0 txt0 ss0 L0 R0 C0. destruct (String.eqb_spec p0 (w_clean w q)) as [->|N].
        * rewrite lookup_aset_eq in L0. inversion L0; subst. assert (txt0 = txt) by congruence. subst. split; [|eauto]. rewrite ST. eapply contents_det; eauto.
        * rewrite lookup_aset_neq in L0 by congruence. eapply CF'; eauto.
  Qed.
  Theorem contents_load : forall txt ss, contents good "" txt ss ->
    exists d0, forall d, d0 <= d -> exists n, load_text w wbnf d fuel txt = COk (inr n) /\ statements n = ss.
  Proof.
    intros txt ss C. destruct (contents_ready _ _ _ C) as (d0 & H). exists d0. intros d D. destruct (H d D) as (n & ps & sss & R & G & I & F & ->).
    destruct (make_ready _ _ _ _ _ _ R G I F []) as (g & imps' & b & l & M & _ & _ & _ & ST); [intros ? ? ? ? X; discriminate|].
    exists g. unfold load_text. rewrite M. auto.
  Qed.
End Load.
