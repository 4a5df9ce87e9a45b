(** Nothing is declared twice. *)
From Verif Require Import Base Scanner Syntax Engine Resolve Compile Ast AstCount Codegen CodegenProofs Types TypesSpec TypesProofs TypesKeep.
Require Import Permutation.
Local Open Scope string_scope.

Lemma NoDup_both : forall A (a b : list A), NoDup a -> NoDup b -> (forall x, In x a -> In x b -> False) -> NoDup (a ++ b).
Proof.
  intros A a b N. induction N as [|x a NI N IH]; intros B D; auto. simpl. constructor.
  - intros I. apply in_app_or in I as [I|I]; [auto|]. apply (D x); auto. now left.
  - apply IH; auto. intros y I J. apply (D y); auto. now right.
Qed.

Section Builder.
  Variables (camel : string -> string) (rand : nat -> Z).
  Notation go_name := (go_name camel).
  Notation go_type_name := (go_type_name camel).
  Notation add_child := (add_child camel).
  Notation homed := (homed camel).
  Variable names : list string.

  Definition good (c : gchild) : Prop :=
    match c with
    | GStackRef _ _ | GBackRef _ _ => False
    | GChoice _ | GUnnamed _ _ => True
    | GToken n _ _ | GRef n _ _ _ => In n names
    end.

  Hypothesis apart : distinct_in_go go_name names.

  Definition once (tm : types) : Prop :=
    homed tm /\ NoDup (keys tm) /\ forall k ty, lookup k tm = Some ty -> Forall good (upgraded ty) /\ NoDup (map ident (upgraded ty)).
  Lemma bump_ident : forall n c, ident (bump n c) = ident c.
  Proof. intros n c. unfold bump. destruct (String.eqb _ _); auto. now destruct c. Qed.
  Lemma bump_good : forall n c, good c -> good (bump n c).
  Proof. intros n c. unfold bump. destruct (String.eqb _ _); auto. now destruct c. Qed.
  Lemma choice_ident : forall d, good d -> ident d = "@choice" -> exists p, d = GChoice p.
  Proof. intros d GD E. destruct d; simpl in *; eauto; try discriminate; try contradiction; subst; exfalso; now apply apart. Qed.
  Lemma second_choice : forall all p cs done append, Forall good cs -> In "@choice" (map ident cs) -> dupes_from all (GChoice p) done append cs = all.
  Proof.
    intros all p cs. induction cs as [|c cs IH]; intros done append F I; [contradiction|]. inversion F; subst. cbn [dupes_from ident].
    destruct (String.eqb_spec "@choice" (ident c)) as [E|E].
    - symmetry in E. destruct (choice_ident c) as [p' ->]; auto.
    - apply IH; auto. destruct I as [I|I]; [congruence|auto].
  Qed.
  Lemma check_once : forall cs c, Forall good cs -> NoDup (map ident cs) -> good c ->
    Forall good (check_dupes cs c) /\ NoDup (map ident (check_dupes cs c)).
  Proof.
    intros cs c F N G.
    destruct (in_dec string_dec (ident c) (map ident cs)) as [I|NI].
    - destruct (check_dupes_eq cs c) as [(E & _)|E]; [rewrite E; auto|].
      destruct (countable c) eqn:CC.
      + assert (X : existsb (taken c) cs = true).
        { apply in_map_iff in I as (d & Ed & I). apply existsb_exists. exists d. split; auto. unfold taken. rewrite <- Ed, String.eqb_refl. simpl.
          rewrite Forall_forall in F. specialize (F _ I). destruct d; simpl in F; try contradiction; auto.
          destruct (choice_ident c G (eq_sym Ed)) as [p' ->]. discriminate. }
        rewrite E, X, app_nil_r. split.
        * apply Forall_forall. intros d J. apply in_map_iff in J as (e & <- & J). apply bump_good. rewrite Forall_forall in F. auto.
        * rewrite map_map. erewrite map_ext; [exact N|]. intros; apply bump_ident.
      + destruct c; try discriminate; try contradiction. unfold check_dupes. rewrite second_choice; auto.
    - destruct (check_dupes_eq cs c) as [(E & _)|E]; rewrite E; auto. split.
      + apply Forall_app. split; [|destruct (existsb _ _); auto].
        apply Forall_forall. intros d J. apply in_map_iff in J as (e & <- & J). apply bump_good. rewrite Forall_forall in F. auto.
      + rewrite map_app, map_map. rewrite (map_ext _ ident) by (intros; apply bump_ident). destruct (existsb _ _); [now rewrite app_nil_r|].
        eapply Permutation_NoDup; [apply Permutation_app_comm|]. simpl. now constructor.
  Qed.
  Lemma once_add : forall p c tm, at_home p c -> good c -> once tm -> once (add_child p c tm).
  Proof.
    intros p c tm A G (H & N & O). split; [now apply homed_add|]. split; [unfold Types.add_child; now apply NoDup_aset|].
    intros k ty. rewrite lookup_add. destruct (String.eqb_spec k (go_type_name p)) as [->|Q]; [|apply O].
    intros E. inversion E; subst; clear E. destruct (lookup (go_type_name p) tm) as [ty0|] eqn:L.
    - destruct (O _ _ L) as [F D]. simpl. apply check_once; auto.
    - assert (X : Forall good [c] /\ NoDup (map ident [c])) by (split; repeat constructor; auto; intros []).
      destruct c; simpl; auto. destruct (t_one count); simpl; auto. split; repeat constructor. intros [].
  Qed.

  (** * What is written *)

  Definition suffix (c : gchild) : string := match c with GUnnamed _ _ => "Token" | _ => go_name (ident c) end.
  Lemma suffix_apart : forall c d, good c -> good d -> countable c = true -> countable d = true -> suffix c = suffix d -> ident c = ident d.
  Proof.
    destruct apart as (A & B & _). intros c d GC GD CC CD E. destruct c; try discriminate; destruct d; try discriminate; simpl in *; auto; symmetry; auto.
  Qed.
  Lemma getters_header : forall recv s x ret c h, In h (map header (getters recv s x ret c)) -> h = (recv, Some ("One" ++ s)) \/ h = (recv, Some ("All" ++ s)).
  Proof.
    intros recv s x ret c h I. unfold getters in I. rewrite map_app in I. apply in_app_or in I as [I|I].
    - destruct (t_one c); simpl in I; [destruct I as [<-|[]]; auto|contradiction].
    - destruct (t_all c); simpl in I; [destruct I as [<-|[]]; auto|contradiction].
  Qed.
  Lemma child_header : forall c h, good c -> In h (map header (child_decls camel c)) ->
    (exists T, h = (T, Some "Choice")) /\ countable c = false \/
    countable c = true /\ exists T, h = (T, Some ("One" ++ suffix c)) \/ h = (T, Some ("All" ++ suffix c)).
  Proof.
    intros c h G I. destruct c; simpl in G; try contradiction; cbn [child_decls] in I.
    - destruct I as [<-|[]]. left. split; [eexists; reflexivity|reflexivity].
    - right. split; auto. apply getters_header in I. destruct I; eauto.
    - right. split; auto. apply getters_header in I. destruct I; eauto.
    - right. split; auto. apply getters_header in I. destruct I; eauto.
  Qed.
  Lemma app_head : forall a x y : string, (a ++ x)%string = (a ++ y)%string -> x = y.
  Proof. induction a as [|c a IH]; simpl; intros x y E; auto. inversion E. auto. Qed.
  Lemma child_once : forall c, good c -> NoDup (map header (child_decls camel c)).
  Proof.
    assert (X : forall recv s x ret c, NoDup (map header (getters recv s x ret c))).
    { intros recv s x ret c. unfold getters. destruct (t_one c), (t_all c); simpl.
      - constructor; [intros [E|[]]; discriminate|]. constructor; [intros []|constructor].
      - constructor; [intros []|constructor].
      - constructor; [intros []|constructor].
      - constructor. }
    intros c G. destruct c; simpl in G; try contradiction; cbn [child_decls]; auto. simpl. repeat constructor. intros [].
  Qed.
  Lemma children_once : forall cs, Forall good cs -> NoDup (map ident cs) -> NoDup (map header (flat_map (child_decls camel) cs)).
  Proof.
    intros cs F. induction F as [|c cs G F IH]; intros N; [constructor|]. simpl in N. inversion N as [|? ? NI N']; subst. cbn [flat_map]. rewrite map_app.
    apply NoDup_both; auto; [now apply child_once|]. intros h I J.
    apply in_map_iff in J as (e & <- & J). apply in_flat_map in J as (d & Id & J). rewrite Forall_forall in F. pose proof (F _ Id) as GD.
    apply (in_map header) in J. apply NI. apply in_map_iff. exists d. split; auto.
    apply child_header in I; auto. apply child_header in J; auto.
    destruct I as [((T & I) & CC)|(CC & T & I)]; destruct J as [((T' & J) & CD)|(CD & T' & J)].
    - destruct c; try discriminate; try contradiction. destruct d; try discriminate; try contradiction. reflexivity.
    - exfalso. destruct J as [J|J]; rewrite I in J; discriminate.
    - exfalso. destruct I as [I|I]; rewrite J in I; discriminate.
    - symmetry. apply suffix_apart; auto.
      destruct I as [I|I]; destruct J as [J|J]; rewrite I in J; inversion J; auto.
  Qed.
  Lemma insert_perm' : forall x l, Permutation (insert_child x l) (x :: l).
  Proof.
    intros x l. induction l as [|y l IH]; simpl; auto. destruct (String.compare _ _); auto.
    eapply perm_trans; [apply perm_skip, IH|]. apply perm_swap.
  Qed.
  Lemma sort_perm' : forall l, Permutation (sort_children l) l.
  Proof. induction l as [|x l IH]; simpl; auto. unfold sort_children in *. simpl. eapply perm_trans; [apply insert_perm'|]. auto. Qed.
  Lemma flat_map_perm : forall A B (f : A -> list B) l l', Permutation l l' -> Permutation (flat_map f l) (flat_map f l').
  Proof.
    intros A B f l l' P. induction P; simpl; auto.
    - now apply Permutation_app_head.
    - rewrite !app_assoc. apply Permutation_app_tail. apply Permutation_app_comm.
    - eapply perm_trans; eauto.
  Qed.
  Definition receiver (d : decl) : string := match d with DType T | DMethod T _ _ => T end.
  Lemma type_once : forall tm k ty, once tm -> lookup k tm = Some ty ->
    NoDup (map header (type_decls camel ty)) /\ forall d, In d (type_decls camel ty) -> receiver d = k.
  Proof.
    intros tm k ty (H & _ & O) L. destruct (H _ _ L) as (K & NM & FL). destruct (O _ _ L) as [F N].
    destruct ty as [n|n cs]; subst n; cbn [type_decls].
    - split.
      + simpl. constructor; [intros [E|[]]; discriminate|]. repeat constructor. intros [].
      + intros d [<-|[<-|[]]]; simpl; auto.
    - simpl in F, N, FL. split.
      + cbn [map]. constructor.
        * intros I. apply in_map_iff in I as (d & E & I). apply in_flat_map in I as (c & _ & I).
          destruct c; simpl in I; unfold getters in I; try (apply in_app_or in I as [I|I]);
          try (destruct (t_one count)); try (destruct (t_all count)); simpl in I; try contradiction; destruct I as [<-|[]]; discriminate.
        * eapply Permutation_NoDup; [apply Permutation_map, flat_map_perm; symmetry; apply sort_perm'|]. now apply children_once.
      + intros d [<-|I]; [exact K|]. apply in_flat_map in I as (c & Ic & I). apply (Permutation_in _ (sort_perm' cs)) in Ic.
        rewrite Forall_forall in F, FL. specialize (F _ Ic). specialize (FL _ Ic).
        destruct c; simpl in F; try contradiction; simpl in FL; cbn [child_decls] in I; unfold getters in I.
        * destruct I as [<-|[]]. exact FL.
        * apply in_app_or in I as [I|I]; [destruct (t_one count)|destruct (t_all count)]; simpl in I; try contradiction; destruct I as [<-|[]]; exact FL.
        * apply in_app_or in I as [I|I]; [destruct (t_one count)|destruct (t_all count)]; simpl in I; try contradiction; destruct I as [<-|[]]; exact FL.
        * apply in_app_or in I as [I|I]; [destruct (t_one count)|destruct (t_all count)]; simpl in I; try contradiction; destruct I as [<-|[]]; exact FL.
  Qed.
  Lemma decls_once : forall tm, once tm -> NoDup (map header (decls camel tm)).
  Proof.
    intros tm O. unfold decls. pose proof O as (_ & N & _). fold (keys tm).
    assert (NS : NoDup (sort_strings (keys tm))) by (eapply Permutation_NoDup; [symmetry; apply sort_perm|exact N]).
    induction NS as [|k ks NI NS IH]; [constructor|]. cbn [flat_map]. rewrite map_app. apply NoDup_both; auto.
    - destruct (lookup k tm) as [ty|] eqn:L; [|constructor]. now apply (type_once tm k ty).
    - intros h I J. apply in_map_iff in I as (d & <- & I). destruct (lookup k tm) as [ty|] eqn:L; [|contradiction].
      pose proof (proj2 (type_once tm k ty O L) d I) as R.
      apply in_map_iff in J as (e & E & J). apply in_flat_map in J as (k' & Ik & J). destruct (lookup k' tm) as [ty'|] eqn:L'; [|contradiction].
      pose proof (proj2 (type_once tm k' ty' O L') e J) as R'. apply NI. replace k with k'; auto. rewrite <- R, <- R'.
      destruct d, e; simpl in *; congruence.
  Qed.
End Builder.

Definition listed (names : list string) (x : string) : bool := existsb (String.eqb x) names.
Lemma listed_in : forall names x, listed names x = true <-> In x names.
Proof.
  intros names x. unfold listed. rewrite existsb_exists. split; [intros (y & I & E); apply String.eqb_eq in E; now subst|].
  intros I. exists x. split; auto. apply String.eqb_refl.
Qed.
Definition plain_checks (names : list string) : term -> bool :=
  checks (fun r => negb (String.eqb r "@") && listed names r)%bool (fun _ => false) (fun n _ => listed names n).
Lemma clean_checks : forall names t, without "@" t = true -> no_backs t = true -> incl (labels t) names -> plain_checks names t = true.
Proof.
  intros names. unfold plain_checks.
  assert (LS : forall ts, Forall (fun t => without "@" t = true -> no_backs t = true -> incl (labels t) names -> plain_checks names t = true) ts ->
    forallb (without "@") ts = true -> forallb no_backs ts = true -> incl (flat_map labels ts) names -> forallb (plain_checks names) ts = true).
  { intros ts F. induction F as [|t ts H F IH]; simpl; intros A B C; auto. apply andb_true_iff in A as [A1 A2]. apply andb_true_iff in B as [B1 B2].
    apply incl_app_inv in C as [C1 C2]. now rewrite H, IH. }
  induction t using term_ind'; cbn [without no_backs labels checks]; intros A B C; try reflexivity; try discriminate; try (apply LS; assumption); try (apply IHt; assumption).
  - rewrite A. simpl. apply listed_in. apply C. now left.
  - apply andb_true_iff in A as [A1 A2]. apply andb_true_iff in B as [B1 B2]. apply incl_app_inv in C as [C1 C2]. now rewrite IHt1, IHt2.
  - apply andb_true_iff in A as [A1 A2]. apply incl_cons_inv in C as [C1 C2]. rewrite IHt; auto. rewrite (proj2 (listed_in names n)); auto.
  - apply andb_true_iff in A as [A1 A2]. apply andb_true_iff in B as [B1 B2]. apply incl_app_inv in C as [C1 C2]. rewrite IHt; auto. simpl.
    apply forallb_forall. intros kv I. rewrite Forall_forall in H. rewrite forallb_forall in A2, B2. specialize (A2 _ I). apply andb_true_iff in A2 as [_ A2].
    apply H; auto. intros x J. apply C2. apply in_flat_map. eauto.
Qed.

Theorem declared_once : forall camel rand g ds, grammar_without "@" g = true -> forallb (fun kv => no_backs (snd kv)) g = true ->
  distinct_in_go (go_name camel) (grammar_labels g) -> generated_types camel rand g = COk ds -> NoDup (map header ds).
Proof.
  intros camel rand g ds A B D E. unfold generated_types in E. destruct (make_types camel rand g) as [tm| |] eqn:M; try discriminate.
  simpl in E. inversion E; subst. set (names := grammar_labels g) in *. apply (decls_once camel names D).
  refine (types_keep camel rand (fun r => negb (String.eqb r "@") && listed names r)%bool (fun _ => false) (fun n _ => listed names n) (good names)
    (once camel names) _ _ _ _ _ _ _ _ _ g tm _ M _); simpl; auto; try discriminate.
  - intros r H. apply andb_true_iff in H as [H1 H2]. apply listed_in in H2. split; auto. intros ->. discriminate.
  - intros n u H _ _ _. now apply listed_in.
  - intros n u H _ _ _ _. now apply listed_in.
  - intros p c tm'. apply once_add; auto.
  - intros tm' k ty (_ & _ & O) L. destruct (O _ _ L) as [F _]. destruct ty; auto. constructor.
  - apply forallb_forall. intros kv I. unfold grammar_without in A. rewrite forallb_forall in A, B. specialize (A _ I). apply andb_true_iff in A as [_ A].
    apply clean_checks; auto. intros x J. apply in_flat_map. eauto.
  - split; [apply homed_nil|]. split; [constructor|]. discriminate.
Qed.
