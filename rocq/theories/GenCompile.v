(** The declarations of the generated types are accepted by Go together. *)
From Verif Require Import Base Scanner Syntax Resolve Compile Ast WbnfAst Codegen CodegenProofs Types TypesSpec TypesProofs TypesRun Getters GenText GoText GoTyping GenTextSpec GenTextProofs.
Local Open Scope string_scope.
Local Open Scope list_scope.

Lemma declares_types : forall ds gs, declares ds gs -> forall T, In (DType T) ds -> In (GoType (bs T)) gs.
Proof.
  intros ds gs D. induction D as [|T' ds gs D IH|T' x m v ptr body ds gs C W D IH]; intros T I; [contradiction| |].
  - destruct I as [I|I]; [inversion I; now left|right; right; now apply IH].
  - destruct I as [I|I]; [discriminate|right; now apply IH].
Qed.
Lemma declares_well : forall (declared : bytes -> Prop) ds gs, declares ds gs -> (forall T, In (DType T) ds -> declared (bs T)) ->
  (forall T x m, In (DMethod T x m) ds -> declared (bs T) /\ forall R, result_type m = Some R -> declared (bs R)) -> Forall (well_typed declared) gs.
Proof.
  intros declared ds gs D. induction D as [|T' ds gs D IH|T' x m v ptr body ds gs C W D IH]; intros A B; [constructor| |].
  - constructor; [|constructor]; [apply A; now left|apply A; now left|]. apply IH; [intros T I; apply A; now right|intros T x m I; apply (B T x m); now right].
  - destruct (B T' x m (or_introl eq_refl)) as [X Y]. constructor; [now apply W|]. apply IH; [intros T I; apply A; now right|intros T y m' I; apply (B T y m'); now right].
Qed.
Lemma bs_same : forall x y, bs x = bs y -> x = y.
Proof. intros x y E. rewrite <- (sb_bs x), <- (sb_bs y). now rewrite E. Qed.
Lemma declares_headers : forall ds gs, declares ds gs -> forall h, In h (map go_header gs) ->
  (exists d, In d ds /\ h = (bs (fst (header d)), option_map bs (snd (header d)))) \/ (exists T, In (DType T) ds /\ h = (bs T, Some (bs "isWalkableType"))).
Proof.
  intros ds gs D. induction D as [|T' ds gs D IH|T' x m v ptr body ds gs C W D IH]; intros h I; [contradiction| |].
  - cbn [map] in I. destruct I as [I|[I|I]].
    + left. exists (DType T'). split; [now left|now rewrite <- I].
    + right. exists T'. split; [now left|now rewrite <- I].
    + destruct (IH h I) as [(d & J & E)|(T & J & E)]; [left; exists d; split; [now right|exact E]|right; exists T; split; [now right|exact E]].
  - cbn [map] in I. destruct I as [I|I].
    + left. exists (DMethod T' x m). split; [now left|now rewrite <- I].
    + destruct (IH h I) as [(d & J & E)|(T & J & E)]; [left; exists d; split; [now right|exact E]|right; exists T; split; [now right|exact E]].
Qed.
Lemma header_same : forall d d', (bs (fst (header d)), option_map bs (snd (header d))) = (bs (fst (header d')), option_map bs (snd (header d'))) -> header d = header d'.
Proof.
  intros d d' E. destruct (header d) as [T o], (header d') as [T' o']. cbn [fst snd] in E. inversion E as [[A B]]. apply bs_same in A. subst T'.
  destruct o as [x|], o' as [x'|]; cbn in B; try discriminate; [|reflexivity]. inversion B as [C]. apply bs_same in C. now subst.
Qed.
Lemma declares_once : forall ds gs, declares ds gs -> NoDup (map header ds) -> (forall T x m, In (DMethod T x m) ds -> x <> "isWalkableType") -> NoDup (map go_header gs).
Proof.
  intros ds gs D. induction D as [|T' ds gs D IH|T' x m v ptr body ds gs C W D IH]; intros N X; [constructor| |];
    cbn [map] in N |- *; inversion N as [|? ? NI N']; subst.
  - assert (X' : forall T x m, In (DMethod T x m) ds -> x <> "isWalkableType") by (intros T x m I; apply (X T x m); now right).
    constructor; [|constructor; [|now apply IH]].
    + intros [I|I]; [discriminate|]. destruct (declares_headers _ _ D _ I) as [(d & J & E)|(T & J & E)]; [|discriminate].
      apply NI. apply in_map_iff. exists d. split; [|exact J]. symmetry. apply (header_same (DType T') d). exact E.
    + intros I. destruct (declares_headers _ _ D _ I) as [(d & J & E)|(T & J & E)].
      * destruct d as [T|T x m]; cbn in E; [discriminate|]. inversion E as [[A B]]. apply (X' T x m J). now apply bs_same.
      * inversion E as [A]. apply bs_same in A. subst T. apply NI. apply in_map_iff. now exists (DType T').
  - constructor; [|apply IH; [exact N'|intros T y m' I; apply (X T y m'); now right]].
    intros I. destruct (declares_headers _ _ D _ I) as [(d & J & E)|(T & J & E)].
    + apply NI. apply in_map_iff. exists d. split; [|exact J]. symmetry. apply (header_same (DMethod T' x m) d). exact E.
    + inversion E as [[A B]]. apply (X T' x m (or_introl eq_refl)). now apply bs_same.
Qed.
Lemma types_homed : forall camel rand g tm, make_types camel rand g = COk tm -> homed camel tm.
Proof.
  intros camel rand g tm M. unfold make_types in M. destruct (walk_rules _ _ _ _ _ _ _) as [st| |] eqn:W; try discriminate. cbn [cbind] in M. inversion M; subst.
  refine (keeps_rules camel rand (homed camel) (homed_add camel) g _ _ _ _ _ W (homed_nil camel)). apply Forall_forall. intros kv _. apply (walk_keeps camel rand (homed camel) (homed_add camel)).
Qed.
Lemma ref_name : forall x, (x ++ "Ref")%string <> "isWalkableType".
Proof.
  intros x E. apply (f_equal bs) in E. rewrite bs_app in E. apply (f_equal (@rev ascii)) in E. rewrite rev_app_distr in E. vm_compute in E. discriminate.
Qed.
Lemma getters_in : forall T s c r t T' x m, In (DMethod T' x m) (getters T s c r t) -> T' = T /\ result_type m = r /\ x <> "isWalkableType".
Proof.
  intros T s c r t T' x m I. unfold getters in I. apply in_app_or in I as [I|I]; [destruct (t_one t)|destruct (t_all t)]; try contradiction;
    destruct I as [I|[]]; inversion I; subst; (split; [reflexivity|split; [reflexivity|discriminate]]).
Qed.
Lemma method_at : forall camel tm, homed camel tm -> forall T x m, In (DMethod T x m) (decls camel tm) ->
  x <> "isWalkableType" /\ (In (DType T) (decls camel tm) \/ result_type m = Some T).
Proof.
  intros camel tm HO T x m I. unfold decls in I. apply in_flat_map in I as (k & _ & I).
  destruct (lookup k tm) as [ty|] eqn:L; [|contradiction].
  assert (K : In (DType k) (decls camel tm)) by (apply (there_declared camel tm k HO); congruence).
  destruct (HO k ty L) as (TK & TN & LV). destruct ty as [b|b cs]; cbn [type_decls] in I.
  - destruct I as [I|[I|[]]]; inversion I; subst. split; [discriminate|left]. now rewrite TK.
  - destruct I as [I|I]; [discriminate|]. apply in_flat_map in I as (c & J & I). apply (proj1 (sort_children_in _ _)) in J.
    cbn [upgraded] in LV. rewrite Forall_forall in LV. specialize (LV c J).
    destruct c as [p|n p|n p|n p t|p t|n p r t]; cbn [child_decls lives] in I, LV.
    + destruct I as [I|[]]. inversion I; subst T x m. rewrite LV. split; [discriminate|now left].
    + apply getters_in in I as (A & B & C). subst T. split; [exact C|right; exact B].
    + destruct I as [I|[]]. inversion I; subst T x m. rewrite LV. split; [apply ref_name|now left].
    + apply getters_in in I as (A & B & C). subst T. rewrite LV. split; [exact C|now left].
    + apply getters_in in I as (A & B & C). subst T. rewrite LV. split; [exact C|now left].
    + apply getters_in in I as (A & B & C). subst T. rewrite LV. split; [exact C|now left].
Qed.
(** A result type that is not declared is not accepted. *)
Lemma result_needed : forall ds gs, declares ds gs -> compiles gs -> (forall T, In (GoType (bs T)) gs -> In (DType T) ds) ->
  forall T x m R, In (DMethod T x m) ds -> result_type m = Some R -> ~ In (bs R) [bs "string"; bs "int"] -> In (DType R) ds.
Proof.
  intros ds gs D [W _] B. rewrite Forall_forall in W. 
  assert (G : forall hs, declares ds hs -> (forall h, In h hs -> In h gs) -> forall T x m R, In (DMethod T x m) ds -> result_type m = Some R -> ~ In (bs R) [bs "string"; bs "int"] -> In (GoType (bs R)) gs).
  { intros hs E. clear D B. induction E as [|T' ds hs E IH|T' y m' v ptr body ds hs C W' E IH]; intros SUB T x m R I Q NB; [contradiction| |].
    - destruct I as [I|I]; [discriminate|]. apply (IH (fun h J => SUB h (or_intror (or_intror J))) T x m R I Q NB).
    - destruct I as [I|I]; [|apply (IH (fun h J => SUB h (or_intror J)) T x m R I Q NB)].
      inversion I; subst T' y m'. pose proof (W _ (SUB _ (or_introl eq_refl))) as (_ & TH & _).
      assert (TR : there (fun T0 => In (GoType T0) gs) (TyName (bs R))).
      { destruct m as [| |c r|c r|c]; try discriminate; cbn in Q; subst r; cbn [go_result] in TH; inversion TH; assumption. }
      inversion TR as [E1|E1| |T1 J E1| |]; [exfalso; apply NB; left; exact E1|exfalso; apply NB; right; left; exact E1|exact J]. }
  intros T x m R I Q NB. apply B. exact (G gs D (fun h J => J) T x m R I Q NB).
Qed.
Lemma declares_types_only : forall ds gs, declares ds gs -> forall T, In (GoType (bs T)) gs -> In (DType T) ds.
Proof.
  intros ds gs D. induction D as [|T' ds gs D IH|T' x m v ptr body ds gs C W D IH]; intros T I; [contradiction| |].
  - destruct I as [I|[I|I]]; [left; inversion I as [A]; apply bs_same in A; now subst|discriminate|right; now apply IH].
  - destruct I as [I|I]; [discriminate|right; now apply IH].
Qed.
Lemma headers_declared : forall ds gs, declares ds gs -> forall d, In d ds -> In (bs (fst (header d)), option_map bs (snd (header d))) (map go_header gs).
Proof.
  intros ds gs D. induction D as [|T' ds gs D IH|T' x m v ptr body ds gs C W D IH]; intros d I; [contradiction| |]; destruct I as [I|I]; try subst d; cbn [map];
    first [now left|right; right; now apply IH|right; now apply IH].
Qed.
Lemma once_needed : forall ds gs, declares ds gs -> NoDup (map go_header gs) -> NoDup (map header ds).
Proof.
  intros ds gs D. induction D as [|T' ds gs D IH|T' x m v ptr body ds gs C W D IH]; intros N; [constructor| |]; cbn [map] in N |- *; inversion N as [|? ? NI N']; subst.
  - inversion N' as [|? ? _ N2]; subst. constructor; [|now apply IH]. intros I. apply NI. right. apply in_map_iff in I as (d & E & I).
    pose proof (headers_declared _ _ D d I) as H. rewrite E in H. exact H.
  - constructor; [|now apply IH]. intros I. apply NI. apply in_map_iff in I as (d & E & I).
    pose proof (headers_declared _ _ D d I) as H. rewrite E in H. exact H.
Qed.
Lemma node_name : forall camel r, ~ In (bs (go_type_name camel r)) [bs "string"; bs "int"].
Proof.
  intros camel r I. assert (E : exists w, rev (bs (go_type_name camel r)) = "e"%char :: w).
  { unfold go_type_name. rewrite bs_app, rev_app_distr. eexists. reflexivity. }
  destruct E as (w & E). destruct I as [I|[I|[]]]; rewrite <- I in E; vm_compute in E; discriminate.
Qed.
Lemma result_name : forall camel tm T x m R, In (DMethod T x m) (decls camel tm) -> result_type m = Some R -> exists r, R = go_type_name camel r.
Proof.
  intros camel tm T x m R I E. unfold decls in I. apply in_flat_map in I as (k & _ & I).
  destruct (lookup k tm) as [[b|b cs]|]; [| |contradiction]; cbn [type_decls] in I.
  - destruct I as [I|[I|[]]]; inversion I; subst. discriminate.
  - destruct I as [I|I]; [discriminate|]. apply in_flat_map in I as (c & _ & I).
    destruct c as [p|n p|n p|n p t|p t|n p r t]; cbn [child_decls] in I;
      try (destruct I as [I|[]]; inversion I; subst; discriminate); apply getters_in in I as (A & B & C); rewrite B in E; try discriminate; inversion E; eauto.
Qed.
(** Exactly then. *)
Lemma text_compiles_iff : forall camel rand g tm gs, make_types camel rand g = COk tm -> declares (decls camel tm) gs ->
  (compiles gs <-> (forall T x m R, In (DMethod T x m) (decls camel tm) -> result_type m = Some R -> In (DType R) (decls camel tm)) /\ NoDup (map header (decls camel tm))).
Proof.
  intros camel rand g tm gs M D. pose proof (types_homed _ _ _ _ M) as HO. split.
  - intros C. split.
    + intros T x m R I E. apply (result_needed _ _ D C (declares_types_only _ _ D) T x m R I E).
      destruct (result_name camel tm T x m R I E) as (r & ->). apply node_name.
    + exact (once_needed _ _ D (proj2 C)).
  - intros [R N]. split.
    + apply (declares_well _ _ _ D).
      * exact (declares_types _ _ D).
      * intros T x m I. split; [|intros R' E; apply (declares_types _ _ D); exact (R T x m R' I E)].
        apply (declares_types _ _ D). destruct (method_at camel tm HO T x m I) as [_ [J|J]]; [exact J|exact (R T x m T I J)].
    + apply (declares_once _ _ D N). intros T x m I. exact (proj1 (method_at camel tm HO T x m I)).
Qed.
