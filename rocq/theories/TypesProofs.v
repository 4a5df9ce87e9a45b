(** Lemmas about the generated types. *)
From Verif Require Import Base Scanner Syntax Resolve Compile Codegen CodegenProofs Ast AstSpec Types TypesSpec.

(** * Children of a type *)

(** The child counts the name [x] with the tally [m]. *)
Definition counts (c : gchild) (x : string) (m : tally) : Prop :=
  match c with
  | GToken n _ m' | GRef n _ _ m' => n = x /\ m' = m
  | GUnnamed _ m' => x = ""%string /\ m' = m
  | _ => False
  end.
Definition countable (c : gchild) : bool := match c with GToken _ _ _ | GRef _ _ _ _ | GUnnamed _ _ => true | _ => false end.
(** Names that are not those of tokens. *)
Definition fine (n : string) : Prop := n <> ""%string /\ n <> "Token"%string.
Definition used (m : tally) : Prop := t_one m = true \/ t_all m = true.
Definition proper (c : gchild) : Prop :=
  match c with
  | GToken n _ m | GRef n _ _ m => fine n /\ used m
  | GStackRef n _ | GBackRef n _ => fine n
  | GUnnamed _ m => used m
  | GChoice _ => True
  end.
Lemma counts_ident : forall c d x y m k, proper c -> proper d -> counts c x m -> counts d y k -> (ident c = ident d <-> x = y).
Proof.
  intros [] [] x y m k; simpl; unfold fine; intros P Q A B; try contradiction; destruct A; destruct B; subst; intuition congruence.
Qed.
Lemma counts_countable : forall c, countable c = true -> exists x m, counts c x m.
Proof. intros []; simpl; intros E; try discriminate; eauto. Qed.

(** What [checkForDupes] does to a child. *)
Definition bump (next c : gchild) : gchild :=
  if String.eqb (ident next) (ident c) then
    match c with
    | GUnnamed p n => GUnnamed p (new_count n next)
    | GToken x p n => GToken x p (new_count n next)
    | GRef x p r n => GRef x p r (new_count n next)
    | _ => c
    end
  else c.
Definition taken (next c : gchild) : bool := (String.eqb (ident next) (ident c) && countable c)%bool.
Lemma dupes_from_eq : forall all next cs done append,
  (dupes_from all next done append cs = all /\
   match next with GStackRef _ _ | GChoice _ => True | _ => False end /\
   exists c, In c cs /\ ident c = ident next /\ countable c = false) \/
  dupes_from all next done append cs =
    (done ++ map (bump next) cs ++ (if (append && negb (existsb (taken next) cs))%bool then [next] else []))%list.
Proof.
  intros all next. induction cs as [|c cs IH]; intros done append; cbn [dupes_from].
  - right. destruct append; simpl; now rewrite ?app_nil_r.
  - assert (GO : forall done' append' c', c' = bump next c -> append' = (append && negb (taken next c))%bool -> done' = (done ++ [c'])%list ->
      (dupes_from all next done' append' cs = all /\
       match next with GStackRef _ _ | GChoice _ => True | _ => False end /\
       exists c0, In c0 (c :: cs) /\ ident c0 = ident next /\ countable c0 = false) \/
      dupes_from all next done' append' cs =
        (done ++ map (bump next) (c :: cs) ++ (if (append && negb (existsb (taken next) (c :: cs)))%bool then [next] else []))%list).
    { intros done' append' c' -> -> ->. destruct (IH (done ++ [bump next c])%list (append && negb (taken next c))%bool) as [(E & N & c0 & I & Q)|E].
      - left. split; auto. split; auto. exists c0. split; auto. now right.
      - right. rewrite E. rewrite <- app_assoc. simpl. do 3 f_equal. now rewrite negb_orb, andb_assoc. }
    destruct (String.eqb_spec (ident next) (ident c)) as [Q|Q].
    + destruct c; try (apply (GO _ _ _ eq_refl); unfold bump, taken; rewrite Q, String.eqb_refl; simpl; now rewrite ?andb_false_r, ?andb_true_r).
      * destruct next; try (apply (GO _ _ _ eq_refl); unfold bump, taken; rewrite Q, String.eqb_refl; simpl; now rewrite ?andb_false_r, ?andb_true_r).
        left. split; auto. split; auto. eexists. split; [now left|]. now split.
      * destruct next; try (apply (GO _ _ _ eq_refl); unfold bump, taken; rewrite Q, String.eqb_refl; simpl; now rewrite ?andb_false_r, ?andb_true_r).
        left. split; auto. split; auto. eexists. split; [now left|]. now split.
    + apply (GO _ _ _ eq_refl); unfold bump, taken; destruct (String.eqb_spec (ident next) (ident c)); try contradiction; simpl; now rewrite ?andb_true_r.
Qed.
Lemma check_dupes_eq : forall cs next,
  (check_dupes cs next = cs /\
   match next with GStackRef _ _ | GChoice _ => True | _ => False end /\
   exists c, In c cs /\ ident c = ident next /\ countable c = false) \/
  check_dupes cs next = (map (bump next) cs ++ (if existsb (taken next) cs then [] else [next]))%list.
Proof.
  intros cs next. destruct (dupes_from_eq cs next cs [] true) as [E|E]; [left; auto|right].
  unfold check_dupes. rewrite E. simpl. now destruct (existsb (taken next) cs).
Qed.

(** * Tallies *)

Definition tle (a b : tally) : Prop :=
  (t_one a = true -> t_one b = true) /\ (t_all a = true -> t_all b = true) /\
  (forall i, In i (t_ids a) -> In i (t_ids b) \/ t_all b = true).
Lemma tle_refl : forall a, tle a a.
Proof. intros a. repeat split; auto. Qed.
Lemma tle_trans : forall a b c, tle a b -> tle b c -> tle a c.
Proof. intros a b c (A1 & A2 & A3) (B1 & B2 & B3). repeat split; auto. intros i I. destruct (A3 i I) as [J|J]; auto. Qed.
Lemma tle_many : forall a, tle a (force_many a).
Proof. intros a. repeat split; simpl; auto. Qed.
Lemma tle_single : forall i a, tle a (push_single i a).
Proof.
  intros i a. unfold push_single. destruct (t_all a) eqn:A; [apply tle_refl|].
  destruct (existsb _ _); [apply tle_many|].
  split; [auto|split; [simpl; congruence|]]. intros j I. left. simpl. apply in_or_app. auto.
Qed.
Lemma single_in : forall i a, In i (t_ids (push_single i a)) \/ t_all (push_single i a) = true.
Proof.
  intros i a. unfold push_single. destruct (t_all a) eqn:A; auto. destruct (existsb _ _); simpl; auto. left. apply in_or_app. simpl. auto.
Qed.
Lemma single_again : forall i a, In i (t_ids a) -> t_all (push_single i a) = true.
Proof.
  intros i a I. unfold push_single. destruct (t_all a) eqn:A; auto.
  replace (existsb (Z.eqb i) (t_ids a)) with true; auto. symmetry. apply existsb_exists. exists i. split; auto. apply Z.eqb_refl.
Qed.
Lemma fold_single : forall l a, tle a (fold_left (fun c i => push_single i c) l a) /\
  (forall i, In i l -> In i (t_ids (fold_left (fun c i => push_single i c) l a)) \/ t_all (fold_left (fun c i => push_single i c) l a) = true) /\
  (forall i, In i l -> In i (t_ids a) -> t_all (fold_left (fun c i => push_single i c) l a) = true).
Proof.
  induction l as [|j l IH]; intros a; simpl.
  - split; [apply tle_refl|]. split; contradiction.
  - destruct (IH (push_single j a)) as (L & A & B). split; [eapply tle_trans; [apply tle_single|exact L]|]. split.
    + intros i [->|I]; auto. destruct (single_in i a) as [J|J]; [|right; now apply L].
      destruct L as (_ & _ & L). now apply L.
    + intros i [->|I] J.
      * apply L. now apply single_again.
      * destruct (tle_single j a) as (_ & _ & T). destruct (T i J) as [K|K]; [now apply (B i)|now apply L].
Qed.
Lemma merge_le : forall a b, tle a (merge_tally a b).
Proof. intros a b. unfold merge_tally. destruct (t_all b); [apply tle_many|apply fold_single]. Qed.
Lemma merge_all : forall a b, t_all b = true -> t_all (merge_tally a b) = true.
Proof. intros a b E. unfold merge_tally. now rewrite E. Qed.
Lemma merge_in : forall a b i, In i (t_ids b) -> In i (t_ids (merge_tally a b)) \/ t_all (merge_tally a b) = true.
Proof. intros a b i I. unfold merge_tally. destruct (t_all b); [now right|]. now apply fold_single. Qed.
Lemma merge_again : forall a b i, In i (t_ids b) -> In i (t_ids a) -> t_all (merge_tally a b) = true.
Proof. intros a b i I J. unfold merge_tally. destruct (t_all b); [reflexivity|]. now apply (proj2 (proj2 (fold_single (t_ids b) a)) i). Qed.
Lemma new_count_le : forall n next, tle n (new_count n next).
Proof. intros n []; simpl; auto using tle_refl, tle_many, merge_le. Qed.
Lemma new_count_counts : forall n next x m, counts next x m -> new_count n next = merge_tally n m.
Proof. intros n [] x m; simpl; intros C; try contradiction; destruct C; now subst. Qed.

Lemma bump_counts : forall next c x m, counts c x m ->
  counts (bump next c) x (if String.eqb (ident next) (ident c) then new_count m next else m).
Proof. intros next c x m C. unfold bump. destruct (String.eqb (ident next) (ident c)); auto. destruct c; simpl in *; try contradiction; destruct C; now subst. Qed.
Lemma bump_same : forall next c, countable c = false -> bump next c = c.
Proof. intros next c C. unfold bump. destruct (String.eqb _ _); auto. now destruct c. Qed.
Lemma used_le : forall a b, tle a b -> used a -> used b.
Proof. intros a b (A & B & _) [U|U]; [left|right]; auto. Qed.
Lemma bump_proper : forall next c, proper c -> proper (bump next c).
Proof.
  intros next c P. unfold bump. destruct (String.eqb _ _); auto.
  destruct c; simpl in *; auto; try destruct P as [P P']; try split; auto; eapply used_le; eauto using new_count_le.
Qed.

(** * Types *)

(** The type counts [x] with tally [m]. *)
Definition slot (ty : gtype) (x : string) (m : tally) : Prop :=
  match ty with
  | GBasic _ => x = ""%string /\ m = want_one
  | GRule _ cs => exists c, In c cs /\ counts c x m
  end.
Definition proper_type (ty : gtype) : Prop := match ty with GBasic _ => True | GRule _ cs => Forall proper cs end.
(** The children that a new child meets. *)
Definition upgraded (ty : gtype) : list gchild := match ty with GBasic n => [GUnnamed n want_one] | GRule _ cs => cs end.
Lemma slot_upgraded : forall ty x m, slot ty x m <-> exists c, In c (upgraded ty) /\ counts c x m.
Proof.
  intros [] x m; simpl; [|reflexivity]. split.
  - intros [-> ->]. eexists. split; [now left|]. simpl. auto.
  - intros (c & [<-|[]] & C). simpl in C. destruct C. auto.
Qed.
Lemma upgraded_proper : forall ty, proper_type ty -> Forall proper (upgraded ty).
Proof. intros [] P; simpl; auto. repeat constructor. Qed.

Section Builder.
Variables (camel : string -> string) (rand : nat -> Z).
Notation go_type_name := (go_type_name camel).
Notation add_child := (add_child camel).

(** The type of a parent after a child was added. *)
Definition born (name : string) (child : gchild) : gtype :=
  match child with GUnnamed _ c => if t_one c then GBasic name else GRule name [child] | _ => GRule name [child] end.
Lemma lookup_add : forall p c tm k, lookup k (add_child p c tm) =
  if String.eqb k (go_type_name p) then
    Some (match lookup k tm with
          | Some ty => GRule (go_type_name p) (check_dupes (upgraded ty) c)
          | None => born (go_type_name p) c
          end)
  else lookup k tm.
Proof.
  intros p c tm k. unfold Types.add_child. destruct (String.eqb_spec k (go_type_name p)) as [->|N].
  - rewrite lookup_aset_eq. f_equal. now destruct (lookup _ tm) as [[]|].
  - apply lookup_aset_neq. congruence.
Qed.

Definition proper_types (tm : types) : Prop := forall k ty, lookup k tm = Some ty -> proper_type ty.
Lemma check_proper : forall cs c, Forall proper cs -> proper c -> Forall proper (check_dupes cs c).
Proof.
  intros cs c F P. destruct (check_dupes_eq cs c) as [(E & _)|E]; rewrite E; auto.
  apply Forall_app. split.
  - apply Forall_forall. intros d I. apply in_map_iff in I as (e & <- & I). apply bump_proper. rewrite Forall_forall in F. auto.
  - destruct (existsb _ _); auto.
Qed.
Lemma add_proper : forall p c tm, proper_types tm -> proper c -> proper_types (add_child p c tm).
Proof.
  intros p c tm T P k ty. rewrite lookup_add. destruct (String.eqb k (go_type_name p)); [|apply T].
  intros E. inversion E; subst. destruct (lookup k tm) as [ty0|] eqn:L.
  - simpl. apply check_proper; auto. apply upgraded_proper. eauto.
  - destruct c; simpl; auto; try (repeat constructor; auto; fail). destruct (t_one count); simpl; auto.
Qed.

(** Slots stay, ... *)
Lemma check_slot : forall cs c x m d, In d cs -> counts d x m -> exists m', (exists d', In d' (check_dupes cs c) /\ counts d' x m') /\ tle m m'.
Proof.
  intros cs c x m d I C. destruct (check_dupes_eq cs c) as [(E & _)|E]; rewrite E.
  - exists m. split; [eauto|apply tle_refl].
  - pose proof (bump_counts c d x m C) as B. eexists. split.
    + exists (bump c d). split; [|exact B]. apply in_or_app. left. now apply in_map.
    + destruct (String.eqb _ _); [apply new_count_le|apply tle_refl].
Qed.
Lemma add_slot : forall p c tm k ty x m, lookup k tm = Some ty -> slot ty x m ->
  exists ty' m', lookup k (add_child p c tm) = Some ty' /\ slot ty' x m' /\ tle m m'.
Proof.
  intros p c tm k ty x m L S. rewrite lookup_add, L. destruct (String.eqb k (go_type_name p)).
  - apply slot_upgraded in S as (d & I & C). destruct (check_slot (upgraded ty) c x m d I C) as (m' & S' & T).
    eexists. exists m'. split; [reflexivity|]. auto.
  - exists ty, m. auto using tle_refl.
Qed.
(** ... a new child is counted in with them, ... *)
Lemma add_merge : forall p c tm ty x m n, lookup (go_type_name p) tm = Some ty -> proper_type ty -> proper c -> slot ty x m -> counts c x n ->
  exists ty', lookup (go_type_name p) (add_child p c tm) = Some ty' /\ slot ty' x (merge_tally m n).
Proof.
  intros p c tm ty x m n L P Q S C. rewrite lookup_add, L, String.eqb_refl. eexists. split; [reflexivity|].
  apply slot_upgraded in S as (d & I & D). simpl. apply upgraded_proper in P. rewrite Forall_forall in P.
  destruct (check_dupes_eq (upgraded ty) c) as [(_ & N & _)|E].
  - destruct c; simpl in C; contradiction.
  - rewrite E. exists (bump c d). split; [apply in_or_app; left; now apply in_map|].
    pose proof (bump_counts c d x m D) as B.
    assert (X : String.eqb (ident c) (ident d) = true) by (apply String.eqb_eq, (counts_ident c d x x n m); auto).
    rewrite X in B. now rewrite (new_count_counts m c x n C) in B.
Qed.
(** ... and has a slot of its own otherwise. *)
Definition pure (m : tally) : Prop := t_one m = negb (t_all m).
Lemma add_new : forall p c tm x n, proper_types tm -> proper c -> counts c x n -> pure n ->
  exists ty' m, lookup (go_type_name p) (add_child p c tm) = Some ty' /\ slot ty' x m /\ (t_all n = true -> t_all m = true) /\
    ((lookup (go_type_name p) tm <> None \/ x <> ""%string) -> forall i, In i (t_ids n) -> In i (t_ids m) \/ t_all m = true).
Proof.
  intros p c tm x n T Q C PU. destruct (lookup (go_type_name p) tm) as [ty|] eqn:L.
  - pose proof (T _ _ L) as P. rewrite lookup_add, L, String.eqb_refl. eexists.
    destruct (check_dupes_eq (upgraded ty) c) as [(_ & N & _)|E]; [destruct c; simpl in C; contradiction|].
    destruct (existsb (taken c) (upgraded ty)) eqn:X.
    + apply existsb_exists in X as (d & I & TK). unfold taken in TK. apply andb_true_iff in TK as [ID CT].
      apply String.eqb_eq in ID. destruct (counts_countable d CT) as (y & m & D).
      apply upgraded_proper in P. rewrite Forall_forall in P.
      assert (x = y) by (apply (counts_ident c d x y n m); auto). subst y.
      exists (merge_tally m n). split; [reflexivity|]. split.
      * simpl. rewrite E. exists (bump c d). split; [apply in_or_app; left; now apply in_map|].
        pose proof (bump_counts c d x m D) as B. rewrite ID, String.eqb_refl in B. now rewrite (new_count_counts m c x n C) in B.
      * split; [apply merge_all|]. intros _ i. apply merge_in.
    + exists n. split; [reflexivity|]. split; [|auto].
      simpl. rewrite E. exists c. split; [apply in_or_app; right; now left|auto].
  - rewrite lookup_add, L, String.eqb_refl. unfold born. destruct c; simpl in C; try contradiction.
    + eexists. exists n. split; [reflexivity|]. split; [|auto]. simpl. eexists. split; [now left|]. exact C.
    + destruct C as [-> ->]. unfold pure in PU. destruct (t_one n) eqn:O.
      * eexists. exists want_one. split; [reflexivity|]. split; [split; reflexivity|]. split; [destruct (t_all n); discriminate|].
        intros [F|F]; now destruct F.
      * eexists. exists n. split; [reflexivity|]. split; [|auto]. simpl. eexists. split; [now left|]. simpl. auto.
    + eexists. exists n. split; [reflexivity|]. split; [|auto]. simpl. eexists. split; [now left|]. exact C.
Qed.

(** * What a walk adds *)

Definition adds (l : list (string * gchild)) (tm : types) : types := fold_left (fun tm pc => add_child (fst pc) (snd pc) tm) l tm.
Lemma adds_app : forall l1 l2 tm, adds (l1 ++ l2) tm = adds l2 (adds l1 tm).
Proof. intros. apply fold_left_app. Qed.
Definition all_proper (l : list (string * gchild)) : Prop := Forall (fun pc => proper (snd pc)) l.

(** The additions of a term: its parent, tally and id, and the children in order. *)
Inductive traces : term -> string -> tally -> Z -> list (string * gchild) -> Prop :=
| tr_lit : forall x p q i, traces (TS x) p q i [(p, GUnnamed p (push_single i q))]
| tr_re : forall x p q i, traces (TRE x) p q i [(p, GUnnamed p (push_single i q))]
| tr_rule : forall r ret p q i, traces (TRule r) p q i [(p, GRef r p ret (push_single i q))]
| tr_at : forall x p' p q i, traces (TRule "@") p q i [(p, GStackRef x p')]
| tr_ref : forall n d p q i, traces (TREF n d) p q i [(p, GBackRef n p)]
| tr_ext : forall n p q i, traces (TExtRef n) p q i []
| tr_scoped : forall t g p q i l0 l, traces t p q i l -> traces (TScoped t g) p q i (l0 ++ l)
| tr_seq : forall ts p q i l, traces_seq ts p q i l -> traces (TSeq ts) p q i l
| tr_stack : forall ts p q i l, traces_seq ts p q i l -> traces (TStack ts) p q i l
| tr_oneof : forall ts p q i l, traces_alts ts p q l -> traces (TOneof ts) p q i ((p, GChoice p) :: l)
| tr_quant : forall t mn mx p q i l, traces t p (if Nat.eqb mx 1 then q else want_all) i l -> traces (TQuant t mn mx) p q i l
| tr_cut : forall t p q i l, traces t p q i l -> traces (TCut t) p q i l
| tr_look : forall t p q i l, traces t p q i l -> traces (TLookAhead t) p q i l
| tr_named_rule : forall n r p q i, traces (TNamed n (TRule r)) p q i [(p, GRef n p r q)]
| tr_named_at : forall n p' p q i, traces (TNamed n (TRule "@")) p q i [(p, GStackRef n p')]
| tr_named_token : forall n u p q i, match u with TRE _ | TS _ | TCut _ => True | _ => False end -> traces (TNamed n u) p q i [(p, GToken n p q)]
| tr_named : forall n u child p q i l, traces u child q i l ->
    match u with TRE _ | TS _ | TCut _ | TRule _ => False | _ => True end -> traces (TNamed n u) p q i (l ++ [(p, GRef n p child q)])
| tr_delim_name : forall t n u a cs ce p q i l, traces t p want_all i l -> match u with TS _ | TCut _ => True | _ => False end ->
    traces (TDelim t (TNamed n u) a cs ce) p q i (l ++ [(p, GToken n p q)])
| tr_delim_names : forall t n u a cs ce p q i l l', traces t p want_all i l -> match u with TS _ | TCut _ => False | _ => True end ->
    traces (TNamed n u) p want_all i l' -> traces (TDelim t (TNamed n u) a cs ce) p q i (l ++ l')
| tr_delim : forall t sep a cs ce p q i l, traces t p want_all i l -> match sep with TCut _ | TS _ => True | _ => False end ->
    traces (TDelim t sep a cs ce) p q i l
| tr_delim_other : forall t sep a cs ce p q i l p' l', traces t p want_all i l ->
    match sep with TCut _ | TS _ | TNamed _ _ => False | _ => True end ->
    traces sep p' want_all i l' -> traces (TDelim t sep a cs ce) p q i (l ++ l')
with traces_seq : list term -> string -> tally -> Z -> list (string * gchild) -> Prop :=
| ts_nil : forall p q i, traces_seq [] p q i []
| ts_cons : forall t ts p q i l l', traces t p q i l -> traces_seq ts p q i l' -> traces_seq (t :: ts) p q i (l ++ l')
with traces_alts : list term -> string -> tally -> list (string * gchild) -> Prop :=
| ta_nil : forall p q, traces_alts [] p q []
| ta_cons : forall t ts p q i l l', traces t p q i l -> traces_alts ts p q l' -> traces_alts (t :: ts) p q (l ++ l').
Scheme traces_mut := Minimality for traces Sort Prop
  with traces_seq_mut := Minimality for traces_seq Sort Prop
  with traces_alts_mut := Minimality for traces_alts Sort Prop.
Combined Scheme traces_mutind from traces_mut, traces_seq_mut, traces_alts_mut.

(** Names known to a walk are those of rules. *)
Definition fine_known (kn : knowns) : Prop := forall r x p, lookup r kn = Some (KStack x p) -> fine x.
Definition fine_term (t : term) : Prop := without "" t = true /\ without "Token" t = true.
Definition fine_grammar (g : grammar) : Prop := grammar_without "" g = true /\ grammar_without "Token" g = true.
Lemma fine_not : forall n, (negb (String.eqb n "") = true /\ negb (String.eqb n "Token") = true) -> fine n.
Proof. intros n [A B]. split; intros ->; discriminate. Qed.

Definition adds_up (w : tstate -> cres tstate) (P : list (string * gchild) -> Prop) : Prop :=
  forall st st', w st = COk st' -> exists l, tmap st' = adds l (tmap st) /\ all_proper l /\ P l.
Lemma used_single : forall i q, used q -> used (push_single i q).
Proof. intros i q. apply used_le, tle_single. Qed.
Lemma adds_one : forall p c (P : list (string * gchild) -> Prop), proper c -> P [(p, c)] -> adds_up (fun st => COk (push camel p c st)) P.
Proof. intros p c P PR H st st' E. inversion E; subst. exists [(p, c)]. split; [reflexivity|]. split; [now repeat constructor|auto]. Qed.
Lemma adds_bind : forall w w' (P Q R : list (string * gchild) -> Prop), adds_up w P -> adds_up w' Q -> (forall l l', P l -> Q l' -> R (l ++ l')%list) ->
  adds_up (fun st => cbind (w st) w') R.
Proof.
  intros w w' P Q R A B H st st' E. destruct (w st) as [st1| |] eqn:E1; try discriminate. simpl in E.
  destruct (A _ _ E1) as (l & T & PR & X). destruct (B _ _ E) as (l' & T' & PR' & X').
  exists (l ++ l')%list. split; [rewrite adds_app; congruence|]. split; [apply Forall_app; auto|auto].
Qed.
Lemma adds_imp : forall w (P Q : list (string * gchild) -> Prop), adds_up w P -> (forall l, P l -> Q l) -> adds_up w Q.
Proof. intros w P Q A H st st' E. destruct (A _ _ E) as (l & T & PR & X). exists l. auto. Qed.

Lemma fine_aset : forall kn r v, fine_known kn -> match v with KStack x _ => fine x | _ => True end -> fine_known (aset r v kn).
Proof.
  intros kn r v F V k x p. destruct (String.eqb_spec r k) as [->|N].
  - rewrite lookup_aset_eq. intros E. inversion E; subst. exact V.
  - rewrite lookup_aset_neq by auto. apply F.
Qed.
Lemma fine_merge : forall g pre kn, fine_known kn -> fine_known (merge_known camel pre g kn).
Proof. unfold merge_known. induction g as [|[r t] g IH]; intros pre kn F; simpl; auto. apply IH. now apply fine_aset. Qed.

Lemma adds_drawn : forall (w : tstate -> cres tstate) P f, adds_up w P -> adds_up (fun st => w (mkT (tmap st) (f st))) P.
Proof. intros w P f A st st' E. destruct (A _ _ E) as (l & T & X). exists l. auto. Qed.
Lemma adds_seed : forall (w : Z -> tstate -> cres tstate) (P : list (string * gchild) -> Prop), (forall i, adds_up (w i) P) ->
  adds_up (fun st => w (rand (drawn st)) (mkT (tmap st) (S (drawn st)))) P.
Proof. intros w P A st st' E. destruct (A _ _ _ E) as (l & T & X). exists l. auto. Qed.

(** Every walk of [t] adds one of its traces. *)
Definition walks_fine (t : term) : Prop := fine_term t -> forall p q kn i, fine_known kn -> used q ->
  adds_up (walk_term camel rand t p q kn i) (traces t p q i).

Lemma rules_adds : forall g, Forall (fun kv => walks_fine (snd kv)) g -> fine_grammar g -> forall pre kn, fine_known kn ->
  adds_up (walk_rules camel rand (walk_term camel rand) pre kn g) (fun _ => True).
Proof.
  intros g F. induction F as [|[r t] g W F IH]; intros [A B] pre kn FK; cbn [walk_rules].
  - intros st st' E. inversion E; subst. exists []. split; auto. split; [constructor|auto].
  - simpl in A, B. apply andb_true_iff in A as [A1 A2]. apply andb_true_iff in B as [B1 B2].
    apply andb_true_iff in A1 as [A0 A1]. apply andb_true_iff in B1 as [B0 B1].
    assert (FR : fine r) by (apply fine_not; auto).
    intros st st' E.
    set (typ := (pre ++ go_name camel r)%string) in *.
    assert (FA : fine_known (aset "@"%string (KStack r typ) kn)) by (apply fine_aset; auto).
    destruct (walk_term camel rand t typ want_one (aset "@"%string (KStack r typ) kn) (rand (drawn st)) (mkT (tmap st) (S (drawn st))))
      as [st1| |] eqn:E1; try discriminate. cbn [cbind] in E.
    destruct (W (conj A1 B1) typ want_one (aset "@"%string (KStack r typ) kn) _ FA (or_introl eq_refl) _ _ E1)
      as (l & T & PR & _). cbn [tmap] in T.
    destruct (finish_rule camel r typ st1) as [st2| |] eqn:E2; try discriminate. cbn [cbind] in E.
    assert (X : exists l2, tmap st2 = adds l2 (tmap st1) /\ all_proper l2).
    { unfold finish_rule in E2. destruct (lookup _ _); try discriminate. inversion E2; subst. destruct (stack_addition _ _ _).
      - exists [(typ, GStackRef r typ)]. split; [reflexivity|]. constructor; [exact FR|constructor].
      - exists []. split; [reflexivity|constructor]. }
    destruct X as (l2 & T2 & PR2). destruct (IH (conj A2 B2) pre kn FK _ _ E) as (l3 & T3 & PR3 & _).
    exists (l ++ l2 ++ l3)%list. split; [rewrite !adds_app; congruence|]. split; [|auto].
    apply Forall_app. split; auto. apply Forall_app. auto.
Qed.

Lemma walk_adds : forall t, walks_fine t.
Proof.
  assert (LIT : forall p q i, used q -> proper (GUnnamed p (push_single i q))) by (intros; apply used_single; auto).
  induction t using term_ind'; intros [A B] p q kn id FK U; cbn [walk_term].
  - cbn [leaf_type]. simpl in A, B. assert (FR : fine r) by (apply fine_not; auto).
    destruct (lookup r kn) as [[ret|x p']|] eqn:L; try (intros ? ? E; discriminate); destruct (String.eqb_spec r "@") as [->|N]; try (intros ? ? E; discriminate).
    + apply adds_one; [split; auto; now apply used_single|constructor].
    + apply adds_one; [exact (FK _ _ _ L)|constructor].
  - apply adds_one; [now apply LIT|constructor].
  - apply adds_one; [now apply LIT|constructor].
  - apply adds_one; [apply fine_not; auto|constructor].
  - intros st st' E. inversion E; subst. exists []. split; auto. split; constructor.
  - apply adds_imp with (P := traces_seq ts p q id); [|intros; now constructor].
    simpl in A, B. induction H as [|t ts W F IH].
    + intros st st' E. inversion E; subst. exists []. split; auto. split; constructor.
    + simpl in A, B. apply andb_true_iff in A as [A1 A2]. apply andb_true_iff in B as [B1 B2].
      eapply adds_bind; [apply (W (conj A1 B1) p q kn id FK U)|apply (IH A2 B2)|intros; now constructor].
  - simpl in A, B.
    assert (X : adds_up ((fix alts (ts : list term) (st : tstate) : cres tstate :=
           match ts with
           | [] => COk st
           | t :: ts' => cbind (walk_term camel rand t p q kn (rand (drawn st)) (mkT (tmap st) (S (drawn st)))) (alts ts')
           end) ts) (traces_alts ts p q)).
    { induction H as [|t ts W F IH].
      - intros st st' E. inversion E; subst. exists []. split; auto. split; constructor.
      - simpl in A, B. apply andb_true_iff in A as [A1 A2]. apply andb_true_iff in B as [B1 B2].
        apply (adds_bind (fun st => walk_term camel rand t p q kn (rand (drawn st)) (mkT (tmap st) (S (drawn st)))) _ (fun l => exists i, traces t p q i l) (traces_alts ts p q)).
        + apply (adds_seed (walk_term camel rand t p q kn)). intros i. apply adds_imp with (P := traces t p q i); eauto. apply (W (conj A1 B1)); auto.
        + apply (IH A2 B2).
        + intros l l' (i & T) T'. econstructor; eauto. }
    intros st st' E. destruct (X _ _ E) as (l & T & PR & TR). exists ((p, GChoice p) :: l). split; [exact T|].
    split; [constructor; auto; exact Logic.I|now constructor].
  - apply adds_imp with (P := traces_seq ts p q id); [|intros; now constructor].
    simpl in A, B. induction H as [|t ts W F IH].
    + intros st st' E. inversion E; subst. exists []. split; auto. split; constructor.
    + simpl in A, B. apply andb_true_iff in A as [A1 A2]. apply andb_true_iff in B as [B1 B2].
      eapply adds_bind; [apply (W (conj A1 B1) p q kn id FK U)|apply (IH A2 B2)|intros; now constructor].
  - simpl in A, B. apply andb_true_iff in A as [A1 A2]. apply andb_true_iff in B as [B1 B2].
    assert (UA : used want_all) by now right.
    pose proof (IHt1 (conj A1 B1) p want_all kn id FK UA) as W1.
    assert (W2 : forall p', adds_up (walk_term camel rand t2 p' want_all kn id) (traces t2 p' want_all id)) by (intros p'; apply (IHt2 (conj A2 B2)); auto).
    destruct t2; try (eapply adds_bind; [exact W1|apply W2|intros; eapply tr_delim_other; eauto; exact Logic.I]; fail).
    + intros st st' E. destruct (walk_term camel rand t1 p want_all kn id st) as [st1| |] eqn:E1; try discriminate. inversion E; subst.
      destruct (W1 _ _ E1) as (l & T & PR & TR). exists l. split; auto. split; auto. apply tr_delim; auto; exact Logic.I.
    + simpl in A2, B2. apply andb_true_iff in A2 as [A2 A3]. apply andb_true_iff in B2 as [B2 B3].
      assert (TOK : match t2 with TS _ | TCut _ => True | _ => False end ->
        adds_up (fun st => cbind (walk_term camel rand t1 p want_all kn id st) (fun st => COk (push camel p (GToken name p q) st)))
          (traces (TDelim t1 (TNamed name t2) a cs ce) p q id)).
      { intros M. apply (adds_bind _ _ (traces t1 p want_all id) (fun l => l = [(p, GToken name p q)])); auto.
        - apply adds_one; auto. split; auto. apply fine_not; auto.
        - intros l l' TR ->. now apply tr_delim_name. }
      destruct t2; try (apply TOK; exact Logic.I);
        (eapply adds_bind; [exact W1|apply W2|intros; eapply tr_delim_names; eauto; exact Logic.I]).
    + intros st st' E. destruct (walk_term camel rand t1 p want_all kn id st) as [st1| |] eqn:E1; try discriminate. inversion E; subst.
      destruct (W1 _ _ E1) as (l & T & PR & TR). exists l. split; auto. split; auto. apply tr_delim; auto; exact Logic.I.
  - apply adds_imp with (P := traces t p q id); [|intros; now constructor]. apply (IHt (conj A B)); auto.
  - apply adds_imp with (P := traces t p (if Nat.eqb mx 1 then q else want_all) id); [|intros; now constructor].
    apply (IHt (conj A B)); auto. destruct (Nat.eqb mx 1); auto. now right.
  - simpl in A, B. apply andb_true_iff in A as [A1 A2]. apply andb_true_iff in B as [B1 B2].
    assert (FN : fine n) by (apply fine_not; auto).
    assert (GO : match t with TRE _ | TS _ | TCut _ | TRule _ => False | _ => True end ->
      adds_up (fun st => cbind (walk_term camel rand t (p ++ go_name camel n)%string q kn id st)
        (fun st => COk (push camel p (GRef n p (p ++ go_name camel n)%string q) st))) (traces (TNamed n t) p q id)).
    { intros M. apply (adds_bind _ _ (traces t (p ++ go_name camel n)%string q id) (fun l => l = [(p, GRef n p (p ++ go_name camel n)%string q)])).
      - apply (IHt (conj A2 B2)); auto.
      - apply adds_one; auto. now split.
      - intros l l' TR ->. now apply tr_named. }
    destruct t; try (apply GO; exact Logic.I); try (apply adds_one; [now split|constructor; exact Logic.I]).
    destruct (String.eqb_spec r "@") as [->|N].
    + destruct (lookup "@"%string kn) as [[|x p']|]; try (intros ? ? E; discriminate). apply adds_one; [exact FN|constructor].
    + apply adds_one; [now split|constructor].
  - simpl in A, B. apply andb_true_iff in A as [A1 A2]. apply andb_true_iff in B as [B1 B2].
    eapply adds_bind; [apply (rules_adds g H (conj A2 B2)); now apply fine_merge|apply (IHt (conj A1 B1)); auto; now apply fine_merge|].
    intros l l' _ TR. now constructor.
  - apply adds_imp with (P := traces t p q id); [|intros; now constructor]. apply (IHt (conj A B)); auto.
Qed.

(** * Additions over time *)

Lemma adds_proper : forall l tm, proper_types tm -> all_proper l -> proper_types (adds l tm).
Proof. induction l as [|pc l IH]; intros tm T P; simpl; auto. inversion P; subst. apply IH; auto. now apply add_proper. Qed.
Lemma adds_slot : forall l tm k ty x m, lookup k tm = Some ty -> slot ty x m ->
  exists ty' m', lookup k (adds l tm) = Some ty' /\ slot ty' x m' /\ tle m m'.
Proof.
  induction l as [|pc l IH]; intros tm k ty x m L S; simpl.
  - exists ty, m. auto using tle_refl.
  - destruct (add_slot (fst pc) (snd pc) tm k ty x m L S) as (ty1 & m1 & L1 & S1 & T1).
    destruct (IH _ _ _ _ _ L1 S1) as (ty2 & m2 & L2 & S2 & T2). exists ty2, m2. split; auto. split; auto. eapply tle_trans; eauto.
Qed.
Lemma adds_lives : forall l tm k, lookup k tm <> None -> lookup k (adds l tm) <> None.
Proof.
  induction l as [|pc l IH]; intros tm k L; simpl; auto. apply IH. rewrite lookup_add. destruct (String.eqb _ _); auto. discriminate.
Qed.
Lemma adds_birth : forall l tm p c, In (p, c) l -> lookup (go_type_name p) (adds l tm) <> None.
Proof.
  intros l tm p c I. apply in_split in I as (l1 & l2 & ->). rewrite adds_app. simpl. apply adds_lives.
  rewrite lookup_add, String.eqb_refl. discriminate.
Qed.

(** The type [k] counts [x]; all of them. *)
Definition has_slot (tm : types) (k x : string) : Prop := exists ty m, lookup k tm = Some ty /\ slot ty x m.
Definition has_all (tm : types) (k x : string) : Prop := exists ty m, lookup k tm = Some ty /\ slot ty x m /\ t_all m = true.
Definition has_back (tm : types) (k x : string) : Prop := exists n cs p, lookup k tm = Some (GRule n cs) /\ In (GBackRef x p) cs.
Lemma adds_has_slot : forall l tm k x, has_slot tm k x -> has_slot (adds l tm) k x.
Proof. intros l tm k x (ty & m & L & S). destruct (adds_slot l tm k ty x m L S) as (ty' & m' & L' & S' & _). exists ty', m'. auto. Qed.
Lemma adds_has_all : forall l tm k x, has_all tm k x -> has_all (adds l tm) k x.
Proof.
  intros l tm k x (ty & m & L & S & A). destruct (adds_slot l tm k ty x m L S) as (ty' & m' & L' & S' & _ & T & _). exists ty', m'. auto.
Qed.
Lemma add_has_back : forall p c tm k x, has_back tm k x -> has_back (add_child p c tm) k x.
Proof.
  intros p c tm k x (n & cs & p' & L & I). unfold has_back. rewrite lookup_add, L. destruct (String.eqb _ _); [|eauto 6].
  do 3 eexists. split; [reflexivity|]. simpl. destruct (check_dupes_eq cs c) as [(E & _)|E]; rewrite E; [eauto|].
  apply in_or_app. left. rewrite <- (bump_same c (GBackRef x p')) by reflexivity. now apply in_map.
Qed.
Lemma adds_has_back : forall l tm k x, has_back tm k x -> has_back (adds l tm) k x.
Proof. induction l as [|pc l IH]; intros tm k x H; simpl; auto. apply IH. now apply add_has_back. Qed.

Lemma new_slot : forall l tm p c x m, proper_types tm -> all_proper l -> In (p, c) l -> counts c x m -> pure m ->
  has_slot (adds l tm) (go_type_name p) x /\ (t_all m = true -> has_all (adds l tm) (go_type_name p) x).
Proof.
  intros l tm p c x m T P I C PU. apply in_split in I as (l1 & l2 & ->). rewrite adds_app. simpl.
  apply Forall_app in P as [P1 P2]. inversion P2; subst. pose proof (adds_proper l1 tm T P1) as T1.
  destruct (add_new p c (adds l1 tm) x m T1 ltac:(auto) C PU) as (ty & m' & L & S & A & _). split.
  - apply adds_has_slot. exists ty, m'. auto.
  - intros E. apply adds_has_all. exists ty, m'. auto.
Qed.
Lemma new_back : forall l tm p x p', proper_types tm -> all_proper l -> In (p, GBackRef x p') l ->
  has_slot (adds l tm) (go_type_name p) x \/ has_back (adds l tm) (go_type_name p) x.
Proof.
  intros l tm p x p' T P I. apply in_split in I as (l1 & l2 & ->). rewrite adds_app. simpl.
  apply Forall_app in P as [P1 P2]. inversion P2; subst. pose proof (adds_proper l1 tm T P1) as T1.
  assert (X : has_slot (add_child p (GBackRef x p') (adds l1 tm)) (go_type_name p) x \/ has_back (add_child p (GBackRef x p') (adds l1 tm)) (go_type_name p) x).
  { unfold has_slot, has_back. rewrite lookup_add, String.eqb_refl. destruct (lookup _ (adds l1 tm)) as [ty|] eqn:L.
    - destruct (check_dupes_eq (upgraded ty) (GBackRef x p')) as [(_ & [] & _)|E]. rewrite E.
      destruct (existsb _ _) eqn:X; [left|right].
      + apply existsb_exists in X as (d & I & TK). unfold taken in TK. apply andb_true_iff in TK as [ID CT].
        apply String.eqb_eq in ID. destruct (counts_countable d CT) as (y & m & D).
        pose proof (upgraded_proper _ (T1 _ _ L)) as U. rewrite Forall_forall in U. pose proof (U _ I) as PD.
        assert (y = x). { destruct d; simpl in D, ID, CT; try discriminate; destruct D as [? ?]; subst; auto.
          match goal with Q : proper (snd (_, GBackRef _ _)) |- _ => destruct Q as [_ Q]; now destruct Q end. }
        subst y. eexists. exists (new_count m (GBackRef x p')). split; [reflexivity|].
        simpl. exists (bump (GBackRef x p') d). split; [apply in_or_app; left; now apply in_map|].
        pose proof (bump_counts (GBackRef x p') d x m D) as B. simpl in B, ID. rewrite <- ID, String.eqb_refl in B. exact B.
      + do 3 eexists. split; [reflexivity|]. apply in_or_app. right. now left.
    - right. do 3 eexists. split; [reflexivity|]. now left. }
  destruct X; [left; now apply adds_has_slot|right; now apply adds_has_back].
Qed.
(** A back reference after a part. *)
Lemma echo_all : forall tm p x p', proper_types tm -> fine x -> has_slot tm (go_type_name p) x ->
  has_all (add_child p (GBackRef x p') tm) (go_type_name p) x.
Proof.
  intros tm p x p' T F (ty & m & L & S). unfold has_all. rewrite lookup_add, L, String.eqb_refl.
  pose proof (upgraded_proper _ (T _ _ L)) as U. rewrite Forall_forall in U. apply slot_upgraded in S as (d & I & C).
  destruct (check_dupes_eq (upgraded ty) (GBackRef x p')) as [(_ & [] & _)|E]. rewrite E.
  eexists. exists (new_count m (GBackRef x p')). split; [reflexivity|]. split; [|reflexivity].
  simpl. exists (bump (GBackRef x p') d). split; [apply in_or_app; left; now apply in_map|].
  pose proof (bump_counts (GBackRef x p') d x m C) as B. simpl in B.
  replace (ident d) with x in B; [now rewrite String.eqb_refl in B|].
  destruct d; simpl in C; try contradiction; destruct C as [? ?]; subst; auto. now destruct F.
Qed.

(** Tokens and references counted with one id. *)
Definition single (i : Z) : tally := mkTally true false [i].
Inductive hits (p x : string) (i : Z) : nat -> list (string * gchild) -> Prop :=
| hits_O : forall l, hits p x i 0 l
| hits_S : forall l1 c l2 n, counts c x (single i) -> hits p x i n l2 -> hits p x i (S n) (l1 ++ (p, c) :: l2).
Lemma hits_more : forall p x i n l l', hits p x i n l' -> hits p x i n (l ++ l').
Proof.
  intros p x i n l l' H. inversion H; subst; [constructor|]. rewrite app_assoc. now constructor.
Qed.
Lemma hits_app : forall p x i n l, hits p x i n l -> forall m l', hits p x i m l' -> hits p x i (n + m) (l ++ l').
Proof.
  intros p x i n l H. induction H; intros m l' H'; simpl; [now apply hits_more|].
  rewrite <- app_assoc. simpl. constructor; auto.
Qed.
Lemma hits_less : forall p x i n l, hits p x i n l -> forall m, m <= n -> hits p x i m l.
Proof. intros p x i n l H. induction H; intros [|m] L; try constructor; auto; [lia|]. apply IHhits. lia. Qed.
Lemma hits_all : forall p x i l tm, proper_types tm -> all_proper l -> lookup (go_type_name p) tm <> None \/ x <> ""%string ->
  hits p x i 2 l -> has_all (adds l tm) (go_type_name p) x.
Proof.
  intros p x i l tm T P LV H. inversion H as [|l1 c l2 n C H2]; subst. inversion H2 as [|l3 c' l4 n C' _]; subst.
  apply Forall_app in P as [P1 P2]. inversion P2 as [|? ? Q1 P3]; subst. apply Forall_app in P3 as [P3 P4]. inversion P4 as [|? ? Q2 P5]; subst.
  rewrite adds_app. simpl. rewrite adds_app. simpl. apply adds_has_all.
  pose proof (adds_proper l1 tm T P1) as T1.
  destruct (add_new p c (adds l1 tm) x (single i) T1 Q1 C eq_refl) as (ty & m & L & S & _ & ID).
  assert (LV' : lookup (go_type_name p) (adds l1 tm) <> None \/ x <> ""%string) by (destruct LV; [left; now apply adds_lives|now right]).
  specialize (ID LV' i (or_introl eq_refl)).
  destruct (adds_slot l3 _ _ ty x m L S) as (ty' & m' & L' & S' & _ & TA & TI).
  assert (T2 : proper_types (adds l3 (add_child p c (adds l1 tm)))) by (apply adds_proper; auto; now apply add_proper).
  destruct (add_merge p c' _ ty' x m' (single i) L' (T2 _ _ L') Q2 S' C') as (ty2 & L2 & S2).
  exists ty2, (merge_tally m' (single i)). split; auto. split; auto.
  destruct ID as [ID|ID]; [destruct (TI i ID) as [J|J]|].
  - apply (merge_again m' (single i) i); [now left|auto].
  - now apply (merge_le m' (single i)).
  - apply (merge_le m' (single i)). auto.
Qed.

(** * What the traces of a term contain *)

Definition plain (q : tally) : Prop := q = want_one \/ q = want_all.
Lemma plain_single : forall q i, plain q -> push_single i q = if t_all q then want_all else single i.
Proof. intros q i [-> | ->]; reflexivity. Qed.
Lemma plain_quant : forall q b, plain q -> plain (if b : bool then q else want_all).
Proof. intros q [] P; auto. now right. Qed.
Definition entry_of (x p : string) (l : list (string * gchild)) (all : bool) : Prop :=
  exists c m, In (p, c) l /\ counts c x m /\ pure m /\ (all = true -> t_all m = true).
Lemma entry_left : forall x p l l' b, entry_of x p l b -> entry_of x p (l ++ l') b.
Proof. intros x p l l' b (c & m & I & R). exists c, m. split; auto. apply in_or_app; auto. Qed.
Lemma entry_right : forall x p l l' b, entry_of x p l' b -> entry_of x p (l ++ l') b.
Proof. intros x p l l' b (c & m & I & R). exists c, m. split; auto. apply in_or_app; auto. Qed.
Lemma entry_here : forall x p c q, plain q -> counts c x q -> forall l, entry_of x p (l ++ [(p, c)]) (t_all q).
Proof. intros x p c q P C l. exists c, q. split; [apply in_or_app; right; now left|]. split; auto. split; auto. now destruct P as [-> | ->]. Qed.
Lemma entry_leaf : forall x p c q i, plain q -> counts c x (push_single i q) -> entry_of x p [(p, c)] (t_all q).
Proof.
  intros x p c q i P C. exists c, (push_single i q). split; [now left|]. split; auto. rewrite plain_single by auto. now destruct P as [-> | ->].
Qed.
Lemma entry_weak : forall x p l b b', (b' = true -> b = true) -> entry_of x p l b -> entry_of x p l b'.
Proof. intros x p l b b' W (c & m & I & C & P & A). exists c, m. repeat split; auto. Qed.

Ltac split_in := match goal with X : In _ _ |- _ => simpl in X; apply in_app_or in X as [I|I] end.
Ltac split_all := match goal with X : forallb _ (_ :: _) = true |- _ => simpl in X; apply andb_true_iff in X as [? ?] end.
Lemma traces_parts :
  (forall t p q i l, traces t p q i l -> plain q -> without "@" t = true -> forall x, In x (parts t) -> entry_of x p l (t_all q)) /\
  (forall ts p q i l, traces_seq ts p q i l -> plain q -> forallb (without "@") ts = true -> forall x, In x (flat_map parts ts) -> entry_of x p l (t_all q)) /\
  (forall ts p q l, traces_alts ts p q l -> plain q -> forallb (without "@") ts = true -> forall x, In x (flat_map parts ts) -> entry_of x p l (t_all q)).
Proof.
  apply traces_mutind; cbn [parts without]; intros; try contradiction; try discriminate;
    repeat match goal with X : (_ && _)%bool = true |- _ => apply andb_true_iff in X as [? ?] end; try discriminate;
    try (match goal with X : In _ [_] |- _ => destruct X as [<-|[]] end);
    try (eapply entry_leaf; [eassumption|simpl; auto; fail]);
    try (apply (entry_here _ _ _ _ ltac:(eassumption) ltac:(split; reflexivity) []); fail);
    try (apply entry_here; [assumption|split; reflexivity]); eauto.
  - apply entry_right. auto.
  - destruct (H0 H1 H2 x H3) as (c & m & I & R). exists c, m. split; auto. now right.
  - apply (entry_weak x p l (t_all (if Nat.eqb mx 1 then q else want_all))); [now destruct (Nat.eqb mx 1)|]. apply H0; auto. now apply plain_quant.
  - apply (entry_here n p (GRef n p r q) q H (conj eq_refl eq_refl) []).
  - apply (entry_here n p (GToken n p q) q H0 (conj eq_refl eq_refl) []).
  - split_in; [|destruct I as [<-|[]]].
    + apply entry_left. apply (entry_weak x p l true); auto. apply H0; auto. now right.
    + apply entry_here; auto. now split.
  - split_in.
    + apply entry_left. apply (entry_weak x p l true); auto. apply H0; auto. now right.
    + apply entry_right. apply (entry_weak x p l' true); auto. apply H3; auto; [now right|]. simpl. apply andb_true_iff. now split.
  - apply (entry_weak x p l true); auto. apply H0; auto; [now right|].
    split_in; auto. destruct sep; contradiction.
  - apply entry_left. apply (entry_weak x p l true); auto. apply H0; auto; [now right|].
    split_in; auto. destruct sep; contradiction.
  - split_all. split_in; [apply entry_left|apply entry_right]; auto.
  - split_all. split_in; [apply entry_left|apply entry_right]; auto.
Qed.

Lemma traces_repeated :
  (forall t p q i l, traces t p q i l -> plain q -> without "@" t = true -> forall x, In x (repeated t) -> entry_of x p l true) /\
  (forall ts p q i l, traces_seq ts p q i l -> plain q -> forallb (without "@") ts = true -> forall x, In x (flat_map repeated ts) -> entry_of x p l true) /\
  (forall ts p q l, traces_alts ts p q l -> plain q -> forallb (without "@") ts = true -> forall x, In x (flat_map repeated ts) -> entry_of x p l true).
Proof.
  pose proof (proj1 traces_parts) as TP. assert (PA : plain want_all) by now right.
  apply traces_mutind; cbn [repeated without]; intros; try contradiction; try discriminate;
    repeat match goal with X : (_ && _)%bool = true |- _ => apply andb_true_iff in X as [? ?] end; try discriminate; eauto.
  - apply entry_right. auto.
  - destruct (H0 H1 H2 x H3) as (c & m & I & R). exists c, m. split; auto. now right.
  - destruct (Nat.eqb mx 1); [auto|]. apply (TP _ _ _ _ _ H); auto.
  - split_in; [|now destruct u]. apply entry_left. apply (TP _ _ _ _ _ H); auto.
  - split_in; [apply entry_left; apply (TP _ _ _ _ _ H); auto|]. apply entry_right.
    apply (TP _ _ _ _ _ H2); auto; [simpl; apply andb_true_iff; now split|]. simpl. destruct u; auto; contradiction.
  - split_in; [apply (TP _ _ _ _ _ H); auto|]. destruct sep; contradiction.
  - split_in; [apply entry_left; apply (TP _ _ _ _ _ H); auto|]. destruct sep; contradiction.
  - split_all. split_in; [apply entry_left|apply entry_right]; auto.
  - split_all. split_in; [apply entry_left|apply entry_right]; auto.
Qed.

Lemma occ_app' : forall a b x, count_occ string_dec (a ++ b) x = count_occ string_dec a x + count_occ string_dec b x.
Proof. intros. apply count_occ_app. Qed.
Lemma hits_one : forall p x i c y, counts c y (single i) -> hits p x i (count_occ string_dec [y] x) [(p, c)].
Proof.
  intros p x i c y C. simpl. destruct (string_dec y x) as [->|N]; [|constructor]. apply (hits_S p x i [] c [] 0); [auto|constructor].
Qed.
Lemma traces_direct : forall x,
  (forall t p q i l, traces t p q i l -> q = want_one -> without "@" t = true -> hits p x i (count_occ string_dec (direct t) x) l) /\
  (forall ts p q i l, traces_seq ts p q i l -> q = want_one -> forallb (without "@") ts = true -> hits p x i (count_occ string_dec (flat_map direct ts) x) l) /\
  (forall ts p q l, traces_alts ts p q l -> True).
Proof.
  intros x. apply traces_mutind; cbn [direct without]; intros; auto; try (constructor; fail); try (apply hits_one; subst; split; reflexivity); try discriminate.
  - apply hits_more. subst. apply andb_true_iff in H2 as [? ?]. auto.
  - destruct (Nat.eqb mx 1); [auto|constructor].
  - split_all. simpl. rewrite occ_app'. apply hits_app; auto.
Qed.
Definition hits_in_alt (x p : string) (l : list (string * gchild)) : Prop :=
  exists i l1 l2, l = (l1 ++ l2)%list /\ (exists c, In (p, c) l1) /\ hits p x i 2 l2.
Lemma alt_left : forall x p l l', hits_in_alt x p l -> hits_in_alt x p (l ++ l').
Proof.
  intros x p l l' (i & l1 & l2 & -> & B & H). exists i, l1, (l2 ++ l')%list. split; [now rewrite app_assoc|]. split; auto.
  apply (hits_app p x i 2 l2 H 0 l'). constructor.
Qed.
Lemma alt_right : forall x p l l', hits_in_alt x p l' -> hits_in_alt x p (l ++ l').
Proof.
  intros x p l l' (i & l1 & l2 & -> & (c & B) & H). exists i, (l ++ l1)%list, l2. split; [now rewrite app_assoc|]. split; auto.
  exists c. apply in_or_app. auto.
Qed.
Lemma traces_alternative : forall x,
  (forall t p q i l, traces t p q i l -> q = want_one -> without "@" t = true -> twice_in_alternative x t = true -> hits_in_alt x p l) /\
  (forall ts p q i l, traces_seq ts p q i l -> q = want_one -> forallb (without "@") ts = true ->
     existsb (twice_in_alternative x) ts = true -> hits_in_alt x p l) /\
  (forall ts p q l, traces_alts ts p q l -> q = want_one -> forallb (without "@") ts = true ->
     existsb (fun t => two x (direct t) || twice_in_alternative x t)%bool ts = true ->
     hits_in_alt x p l \/ exists i, hits p x i 2 l).
Proof.
  intros x. pose proof (proj1 (traces_direct x)) as TD.
  apply traces_mutind; cbn [twice_in_alternative without]; intros; auto; try discriminate.
  - apply andb_true_iff in H2 as [? ?]. apply alt_right. auto.
  - destruct (H0 H1 H2 H3) as [A|[j A]].
    + apply (alt_right x p [_] l A).
    + exists j, [(p, GChoice p)], l. split; auto. split; auto. eexists. now left.
  - apply andb_true_iff in H3 as [E ?]. rewrite E in *. auto.
  - split_all. simpl in H5. apply orb_true_iff in H5 as [?|?]; [apply alt_left|apply alt_right]; auto.
  - split_all. simpl in H5. apply orb_true_iff in H5 as [T|T].
    + apply orb_true_iff in T as [T|T]; [right|left; apply alt_left; auto].
      exists i. apply Nat.leb_le in T. apply (hits_app p x i 2 l) with (m := 0); [|constructor].
      apply (hits_less _ _ _ _ _ (TD _ _ _ _ _ H H3 ltac:(auto)) 2 T).
    + destruct (H2 H3 ltac:(auto) T) as [A|[j A]]; [left; now apply alt_right|right; exists j; now apply hits_more].
Qed.

(** Parts and back references in order. *)
Inductive tracks (p : string) : list (string * bool) -> list (string * gchild) -> Prop :=
| tk_nil : forall l, tracks p [] l
| tk_part : forall x c m ts l1 l2, counts c x m -> pure m -> tracks p ts l2 -> tracks p ((x, false) :: ts) (l1 ++ (p, c) :: l2)
| tk_back : forall x p' ts l1 l2, tracks p ts l2 -> tracks p ((x, true) :: ts) (l1 ++ (p, GBackRef x p') :: l2).
Lemma tracks_more : forall p ts l l', tracks p ts l' -> tracks p ts (l ++ l').
Proof. intros p ts l l' H. inversion H; subst; [constructor| |]; rewrite app_assoc; econstructor; eauto. Qed.
Lemma tracks_app : forall p ts l, tracks p ts l -> forall ts' l', tracks p ts' l' -> tracks p (ts ++ ts') (l ++ l').
Proof.
  intros p ts l H. induction H; intros ts' l' H'; simpl; [now apply tracks_more| |]; rewrite <- app_assoc; simpl; econstructor; eauto.
Qed.
Lemma tracks_one : forall p x c m l, counts c x m -> pure m -> tracks p [(x, false)] (l ++ [(p, c)]).
Proof. intros. eapply tk_part; eauto. constructor. Qed.
Lemma plain_pure : forall q i, plain q -> pure q /\ pure (push_single i q).
Proof. intros q i [-> | ->]; split; reflexivity. Qed.
Lemma traces_turns :
  (forall t p q i l, traces t p q i l -> plain q -> without "@" t = true -> tracks p (turns t) l) /\
  (forall ts p q i l, traces_seq ts p q i l -> plain q -> forallb (without "@") ts = true -> tracks p (flat_map turns ts) l) /\
  (forall ts p q l, traces_alts ts p q l -> plain q -> forallb (without "@") ts = true -> tracks p (flat_map turns ts) l).
Proof.
  assert (PA : plain want_all) by now right.
  apply traces_mutind; cbn [turns without]; intros; try discriminate; try (constructor; fail);
    repeat match goal with X : (_ && _)%bool = true |- _ => apply andb_true_iff in X as [? ?] end; try discriminate.
  - eapply (tracks_one p _ _ _ []); [simpl; auto|]. now apply plain_pure.
  - eapply (tracks_one p _ _ _ []); [simpl; auto|]. now apply plain_pure.
  - eapply (tracks_one p _ _ _ []); [simpl; auto|]. now apply plain_pure.
  - apply (tk_back p n p [] [] []). constructor.
  - apply tracks_more. auto.
  - auto.
  - apply (tracks_more p _ [_] l). auto.
  - apply H0; auto. now apply plain_quant.
  - auto.
  - auto.
  - eapply (tracks_one p _ _ _ []); [simpl; auto|]. now apply (plain_pure q 0%Z).
  - eapply (tracks_one p _ _ _ []); [simpl; auto|]. now apply (plain_pure q 0%Z).
  - eapply tracks_one; [simpl; auto|]. now apply (plain_pure q 0%Z).
  - apply tracks_app; auto. eapply (tracks_one p _ _ _ []); [simpl; auto|]. now apply (plain_pure q 0%Z).
  - apply tracks_app; auto. apply H3; auto. apply andb_true_iff. now split.
  - replace (turns t ++ _)%list with (turns t) by (rewrite <- app_nil_r at 1; f_equal; now destruct sep). auto.
  - apply tracks_app; auto. destruct sep; try contradiction; constructor.
  - split_all. apply tracks_app; auto.
  - split_all. apply tracks_app; auto.
Qed.
Lemma tracks_back : forall p ts l, tracks p ts l -> forall x, In (x, true) ts -> exists p', In (p, GBackRef x p') l.
Proof.
  intros p ts l H. induction H; intros y I.
  - contradiction.
  - destruct I as [E|I]; [discriminate|]. destruct (IHtracks y I) as (p' & J). exists p'. apply in_or_app. right. now right.
  - destruct I as [E|I].
    + inversion E; subst. exists p'. apply in_or_app. right. now left.
    + destruct (IHtracks y I) as (p'' & J). exists p''. apply in_or_app. right. now right.
Qed.
Lemma tracks_echo : forall p x ts l, tracks p ts l -> fine x -> forall seen tm, proper_types tm -> all_proper l ->
  (seen = true -> has_slot tm (go_type_name p) x) -> echoed x seen ts = true -> has_all (adds l tm) (go_type_name p) x.
Proof.
  intros p x ts l H F. induction H; intros seen tm T P S E; simpl in E; [discriminate| |];
    apply Forall_app in P as [P1 P2]; inversion P2 as [|? ? Q P3]; subst; rewrite adds_app; simpl;
    pose proof (adds_proper l1 tm T P1) as T1; pose proof (add_proper p _ _ T1 Q) as T2.
  - destruct (String.eqb_spec x x0) as [->|N]; simpl in E.
    + apply (IHtracks true); auto. intros _. destruct (add_new p c (adds l1 tm) x0 m T1 Q H H0) as (ty & m' & L & SL & _). exists ty, m'. auto.
    + apply (IHtracks seen); auto. intros SE. apply (adds_has_slot [(p, c)]). apply adds_has_slot. auto.
  - destruct (String.eqb_spec x x0) as [->|N]; simpl in E.
    + destruct seen; simpl in E.
      * apply adds_has_all. apply echo_all; auto. apply adds_has_slot. auto.
      * apply (IHtracks false); auto. discriminate.
    + apply (IHtracks seen); auto. intros SE. apply (adds_has_slot [(p, GBackRef x0 p')]). apply adds_has_slot. auto.
Qed.

(** The first addition of a term. *)
Lemma first_none : forall t, without "@" t = true -> first_token t = None -> direct t = [].
Proof.
  induction t using term_ind'; simpl; intros WA E; auto; try discriminate.
  - induction H as [|t ts IH F IHts]; simpl in *; auto. apply andb_true_iff in WA as [A B].
    destruct (first_token t); try discriminate. rewrite IH, IHts; auto.
  - destruct (Nat.eqb mx 1); auto.
  - apply andb_true_iff in WA as [A B]. auto.
Qed.
Lemma first_some : forall t, without "@" t = true -> first_token t = Some true -> exists l, direct t = ""%string :: l.
Proof.
  induction t using term_ind'; simpl; intros WA E; try discriminate; eauto.
  - induction H as [|t ts IH F IHts]; simpl in *; try discriminate. apply andb_true_iff in WA as [A B].
    destruct (first_token t) eqn:FT.
    + inversion E; subst. destruct (IH A eq_refl) as (l & ->). simpl. eauto.
    + rewrite (first_none t) by auto. simpl. auto.
  - destruct (first_token t1); [discriminate|]. destruct t2; discriminate.
  - destruct (Nat.eqb mx 1); auto. destruct (first_token t); discriminate.
  - apply andb_true_iff in WA as [A B]. auto.
Qed.
Lemma traces_first :
  (forall t p q i l, traces t p q i l -> forall b, first_token t = Some b -> exists c, In (p, c) l) /\
  (forall ts p q i l, traces_seq ts p q i l ->
     forall b, fold_right (fun t o => match first_token t with Some b => Some b | None => o end) None ts = Some b -> exists c, In (p, c) l) /\
  (forall ts p q l, traces_alts ts p q l -> True).
Proof.
  apply traces_mutind; cbn [first_token]; intros; auto; try discriminate; try (eexists; now left).
  - destruct (H0 _ H1) as (c & I). exists c. apply in_or_app. auto.
  - eapply H0; eauto.
  - destruct (Nat.eqb mx 1); [eauto|]. destruct (first_token t) eqn:E; [eauto|discriminate].
  - eauto.
  - eauto.
  - eexists. apply in_or_app. right. now left.
  - eexists. apply in_or_app. right. now left.
  - destruct (H3 false eq_refl) as (c & I). exists c. apply in_or_app. auto.
  - destruct (first_token t) eqn:E; [eauto|]. destruct sep; try contradiction; discriminate.
  - destruct (first_token t) eqn:E; [destruct (H0 _ eq_refl) as (c & I); exists c; apply in_or_app; auto|]. destruct sep; try contradiction; discriminate.
  - simpl in H3. destruct (first_token t) eqn:E.
    + destruct (H0 _ eq_refl) as (c & I). exists c. apply in_or_app. auto.
    + destruct (H2 _ H3) as (c & I). exists c. apply in_or_app. auto.
Qed.
(** [rest b l]: the tokens and references counted after the first addition. *)
Definition rest (b : bool) (l : list string) : list string := if b then tl l else l.
Definition first_hits (p : string) (i : Z) (d : list string) (l : list (string * gchild)) : Prop :=
  exists l1 c l2, l = (l1 ++ (p, c) :: l2)%list /\ hits p "" i (count_occ string_dec d ""%string) l2.
Lemma first_hits_nil : forall p i l c, In (p, c) l -> first_hits p i [] l.
Proof. intros p i l c I. apply in_split in I as (l1 & l2 & ->). exists l1, c, l2. split; auto. constructor. Qed.
Lemma traces_first_hits :
  (forall t p q i l, traces t p q i l -> q = want_one -> without "@" t = true -> without "" t = true ->
     forall b, first_token t = Some b -> first_hits p i (rest b (direct t)) l) /\
  (forall ts p q i l, traces_seq ts p q i l -> q = want_one -> forallb (without "@") ts = true -> forallb (without "") ts = true ->
     forall b, fold_right (fun t o => match first_token t with Some b => Some b | None => o end) None ts = Some b ->
     first_hits p i (rest b (flat_map direct ts)) l) /\
  (forall ts p q l, traces_alts ts p q l -> True).
Proof.
  pose proof (proj1 traces_first) as TF. pose proof (proj1 (proj2 (traces_direct ""%string))) as TS.
  apply traces_mutind; cbn [first_token direct without]; intros; auto; try discriminate;
    try (match goal with X : Some _ = Some _ |- _ => inversion X; subst; clear X end);
    try (eapply first_hits_nil; now left).
  - exists [], (GRef r p ret (push_single i want_one)), []. split; auto. simpl.
    destruct (string_dec r ""%string) as [->|]; [discriminate|constructor].
  - apply andb_true_iff in H2 as [? ?]. apply andb_true_iff in H3 as [? ?].
    destruct (H0 ltac:(auto) ltac:(auto) ltac:(auto) _ H4) as (l1 & c & l2 & -> & HH). exists (l0 ++ l1)%list, c, l2. split; auto. now rewrite app_assoc.
  - destruct (Nat.eqb mx 1); [auto|]. destruct (first_token t) eqn:E; [|discriminate]. inversion H4; subst. destruct (TF _ _ _ _ _ H _ E) as (c & I).
    simpl. eapply first_hits_nil; eauto.
  - simpl. eapply first_hits_nil. apply in_or_app. right. now left.
  - replace (rest b []) with (@nil string) by now destruct b. eapply first_hits_nil. apply in_or_app. right. now left.
  - replace (rest b []) with (@nil string) by now destruct b. destruct (TF _ _ _ _ _ H2 false eq_refl) as (c & I).
    eapply first_hits_nil. apply in_or_app. right. eauto.
  - replace (rest b []) with (@nil string) by now destruct b. destruct (first_token t) eqn:E; [|destruct sep; try contradiction; discriminate].
    destruct (TF _ _ _ _ _ H _ E) as (c & I). eapply first_hits_nil. eauto.
  - replace (rest b []) with (@nil string) by now destruct b. destruct (first_token t) eqn:E; [|destruct sep; try contradiction; discriminate].
    destruct (TF _ _ _ _ _ H _ E) as (c & I). eapply first_hits_nil. apply in_or_app. left. eauto.
  - subst. repeat split_all. cbn [flat_map fold_right] in *. destruct (first_token t) eqn:E.
    + inversion H6; subst. destruct (H0 ltac:(auto) ltac:(auto) ltac:(auto) _ eq_refl) as (l1 & c & l2 & -> & HH).
      exists l1, c, (l2 ++ l')%list. split; [now rewrite <- app_assoc|].
      replace (rest b (direct t ++ flat_map direct ts)) with (rest b (direct t) ++ flat_map direct ts)%list.
      * rewrite occ_app'. apply hits_app; auto. eapply TS; eauto.
      * destruct b; auto. destruct (first_some t ltac:(auto) E) as (d & ->). reflexivity.
    + rewrite (first_none t) by auto. simpl. destruct (H2 ltac:(auto) ltac:(auto) ltac:(auto) _ H6) as (l1 & c & l2 & -> & HH).
      exists (l ++ l1)%list, c, l2. split; auto. now rewrite app_assoc.
Qed.

(** * Where children live *)

Definition at_home (p : string) (c : gchild) : Prop :=
  match c with
  | GStackRef _ _ => True
  | GChoice p' | GBackRef _ p' | GToken _ p' _ | GUnnamed p' _ | GRef _ p' _ _ => p' = p
  end.
Definition keeps (w : tstate -> cres tstate) (Inv : types -> Prop) : Prop := forall st st', w st = COk st' -> Inv (tmap st) -> Inv (tmap st').
Section Keeps.
  Variable Inv : types -> Prop.
  Hypothesis inv_add : forall p c tm, at_home p c -> Inv tm -> Inv (add_child p c tm).
  Lemma keeps_push : forall p c, at_home p c -> keeps (fun st => COk (push camel p c st)) Inv.
  Proof. intros p c H st st' E I. inversion E; subst. simpl. auto. Qed.
  Lemma keeps_bind : forall w w', keeps w Inv -> keeps w' Inv -> keeps (fun st => cbind (w st) w') Inv.
  Proof. intros w w' A B st st' E I. destruct (w st) as [st1| |] eqn:E1; try discriminate. simpl in E. eauto. Qed.
  Lemma keeps_ok : keeps (fun st => COk st) Inv.
  Proof. intros st st' E I. now inversion E; subst. Qed.
  Lemma keeps_panic : forall (w : tstate -> cres tstate), (forall st, w st = CPanic) -> keeps w Inv.
  Proof. intros w H st st' E. rewrite H in E. discriminate. Qed.
  Lemma keeps_rules : forall g, Forall (fun kv => forall p q kn i, keeps (walk_term camel rand (snd kv) p q kn i) Inv) g -> forall pre kn,
    keeps (walk_rules camel rand (walk_term camel rand) pre kn g) Inv.
  Proof.
    intros g F. induction F as [|[r t] g W F IH]; intros pre kn; cbn [walk_rules]; [apply keeps_ok|].
    intros st st' E I. set (typ := (pre ++ go_name camel r)%string) in *.
    destruct (walk_term camel rand t typ want_one (aset "@"%string (KStack r typ) kn) (rand (drawn st)) (mkT (tmap st) (S (drawn st))))
      as [st1| |] eqn:E1; try discriminate. cbn [cbind] in E.
    pose proof (W _ _ _ _ _ _ E1 I) as I1.
    destruct (finish_rule camel r typ st1) as [st2| |] eqn:E2; try discriminate. cbn [cbind] in E.
    apply (IH pre kn _ _ E). unfold finish_rule in E2. destruct (lookup _ _); try discriminate. inversion E2; subst.
    destruct (stack_addition _ _ _); auto. simpl. apply inv_add; simpl; auto.
  Qed.
  Lemma walk_keeps : forall t p q kn i, keeps (walk_term camel rand t p q kn i) Inv.
  Proof.
    induction t using term_ind'; intros p q kn id; cbn [walk_term]; cbn [leaf_type]; try (apply keeps_push; reflexivity); try apply keeps_ok; auto.
    - destruct (lookup r kn) as [[ret|x p']|]; try (now apply keeps_panic); destruct (String.eqb r "@"); try (now apply keeps_panic); apply keeps_push; reflexivity || exact Logic.I.
    - induction H as [|t ts W F IH]; [apply keeps_ok|]. apply keeps_bind; auto.
    - assert (X : keeps ((fix alts (ts : list term) (st : tstate) : cres tstate :=
           match ts with
           | [] => COk st
           | t :: ts' => cbind (walk_term camel rand t p q kn (rand (drawn st)) (mkT (tmap st) (S (drawn st)))) (alts ts')
           end) ts) Inv).
      { induction H as [|t ts W F IH]; [apply keeps_ok|].
        apply (keeps_bind (fun st => walk_term camel rand t p q kn (rand (drawn st)) (mkT (tmap st) (S (drawn st))))); auto.
        intros st st' E I. exact (W _ _ _ _ _ _ E I). }
      intros st st' E I. apply (X _ _ E). simpl. now apply inv_add.
    - induction H as [|t ts W F IH]; [apply keeps_ok|]. apply keeps_bind; auto.
    - apply keeps_bind; auto. destruct t2; try apply keeps_ok; try apply IHt2. destruct t2; try apply IHt2; apply keeps_push; reflexivity.
    - assert (GO : keeps (fun st => cbind (walk_term camel rand t (p ++ go_name camel n)%string q kn id st)
        (fun st => COk (push camel p (GRef n p (p ++ go_name camel n)%string q) st))) Inv) by (apply keeps_bind; auto; now apply keeps_push).
      destruct t; try exact GO; try (apply keeps_push; reflexivity). destruct (String.eqb r "@"); [|now apply keeps_push].
      destruct (lookup r kn) as [[|]|]; try (now apply keeps_panic). now apply keeps_push.
    - apply keeps_bind; auto. now apply keeps_rules.
  Qed.
End Keeps.

(** The name of a type of a type. *)
Lemma node_suffix_node : forall s, node_suffix (s ++ "Node")%string = Some s.
Proof.
  intros s. unfold node_suffix. replace (bs (s ++ "Node")%string) with (bs s ++ ["N"; "o"; "d"; "e"]%char)%list.
  - rewrite rev_app_distr. simpl. now rewrite rev_involutive, sb_bs.
  - induction s as [|a s IH]; simpl; [reflexivity|]. f_equal. exact IH.
Qed.
Lemma type_name_twice : forall p, go_type_name (go_type_name p) = go_type_name p.
Proof. intros p. unfold Types.go_type_name at 1. unfold Types.go_name, Types.go_type_name at 1. now rewrite node_suffix_node. Qed.

Definition lives (k : string) (c : gchild) : Prop :=
  match c with
  | GStackRef _ _ => True
  | GChoice p | GBackRef _ p | GToken _ p _ | GUnnamed p _ | GRef _ p _ _ => go_type_name p = k
  end.
Definition homed (tm : types) : Prop := forall k ty, lookup k tm = Some ty ->
  go_type_name k = k /\ (match ty with GBasic n | GRule n _ => n = k end) /\ Forall (lives k) (upgraded ty).
Lemma bump_lives : forall k n c, lives k c -> lives k (bump n c).
Proof. intros k n c L. unfold bump. destruct (String.eqb _ _); auto. now destruct c. Qed.
Lemma homed_add : forall p c tm, at_home p c -> homed tm -> homed (add_child p c tm).
Proof.
  intros p c tm A H k ty. rewrite lookup_add. destruct (String.eqb_spec k (go_type_name p)) as [->|N]; [|apply H].
  intros E. inversion E; subst; clear E. split; [apply type_name_twice|].
  assert (LC : lives (go_type_name p) c) by (destruct c; simpl in *; subst; auto).
  destruct (lookup (go_type_name p) tm) as [ty0|] eqn:L.
  - split; [reflexivity|]. simpl. destruct (H _ _ L) as (_ & _ & F).
    destruct (check_dupes_eq (upgraded ty0) c) as [(E & _)|E]; rewrite E; auto.
    apply Forall_app. split.
    + apply Forall_forall. intros d I. apply in_map_iff in I as (e & <- & I). apply bump_lives. rewrite Forall_forall in F. auto.
    + destruct (existsb _ _); auto.
  - destruct c; simpl; try (split; [reflexivity|constructor; auto; fail]). destruct (t_one count); simpl; split; auto.
    constructor; auto. simpl. apply type_name_twice.
Qed.
Lemma homed_nil : homed [].
Proof. intros k ty E. discriminate. Qed.

(** * What is declared *)

Lemma insert_child_in : forall x l c, In c (insert_child x l) <-> c = x \/ In c l.
Proof.
  intros x. induction l as [|y l IH]; intros c; simpl; [intuition|].
  destruct (String.compare _ _); simpl; rewrite ?IH; intuition.
Qed.
Lemma sort_children_in : forall l c, In c (sort_children l) <-> In c l.
Proof. induction l as [|x l IH]; intros c; simpl; [reflexivity|]. rewrite insert_child_in, IH. intuition. Qed.
Lemma in_decls : forall tm k ty d, lookup k tm = Some ty -> In d (type_decls camel ty) -> In d (decls camel tm).
Proof.
  intros tm k ty d L I. apply in_flat_map. exists k. split; [|now rewrite L].
  apply (Permutation_in _ (Permutation_sym (sort_perm _))). apply in_map_iff. exists (k, ty). split; auto. now apply (lookup_In _ _ _ L).
Qed.
Lemma slot_used : forall ty x m, proper_type ty -> slot ty x m -> used m.
Proof.
  intros ty x m P S. apply slot_upgraded in S as (c & I & C). apply upgraded_proper in P. rewrite Forall_forall in P. specialize (P _ I).
  destruct c; simpl in C, P; try contradiction; destruct C; subst; try exact P; now destruct P.
Qed.
Lemma slot_declared : forall tm k x ty m, homed tm -> lookup k tm = Some ty -> slot ty x m ->
  (exists n, ty = GBasic n) \/ ((t_one m = true -> exists n ret, In (DMethod k n (MOne x ret)) (decls camel tm)) /\
                               (t_all m = true -> exists n ret, In (DMethod k n (MAll x ret)) (decls camel tm))).
Proof.
  intros tm k x ty m H L S. destruct ty as [n|n cs]; [left; eauto|right]. destruct S as (c & I & C).
  destruct (H _ _ L) as (_ & -> & F). simpl in F. rewrite Forall_forall in F. specialize (F _ I).
  assert (D : forall d, In d (child_decls camel c) -> In d (decls camel tm)).
  { intros d J. apply (in_decls tm k _ d L). right. apply in_flat_map. exists c. split; auto. now apply sort_children_in. }
  destruct c; simpl in C, F, D; try contradiction; destruct C; subst; unfold getters in D;
    (split; intros E; rewrite E in D; do 2 eexists; apply D; solve [now left|apply in_or_app; right; now left]).
Qed.
Lemma has_slot_reads : forall tm k x, homed tm -> proper_types tm -> has_slot tm k x -> reads_child (decls camel tm) k x.
Proof.
  intros tm k x H P (ty & m & L & S). destruct (slot_declared tm k x ty m H L S) as [(n & ->)|(A & B)].
  - destruct S as [-> _]. destruct (H _ _ L) as (_ & -> & _). exists "String"%string, MString. split.
    + apply (in_decls tm k _ _ L). simpl. right. left. now destruct (H _ _ L) as (-> & _).
    + right. right. auto.
  - destruct (slot_used _ _ _ (P _ _ L) S) as [E|E].
    + destruct (A E) as (n & ret & I). exists n, (MOne x ret). split; auto. left. eauto.
    + destruct (B E) as (n & ret & I). exists n, (MAll x ret). split; auto. left. eauto.
Qed.
Lemma has_back_reads : forall tm k x, homed tm -> has_back tm k x -> reads_child (decls camel tm) k x.
Proof.
  intros tm k x H (n & cs & p & L & I). destruct (H _ _ L) as (_ & -> & F). simpl in F. rewrite Forall_forall in F. specialize (F _ I). simpl in F.
  exists (go_name camel x ++ "Ref")%string, (MRef x). split; [|auto]. apply (in_decls tm k _ _ L). right.
  apply in_flat_map. exists (GBackRef x p). split; [now apply sort_children_in|]. simpl. rewrite F. now left.
Qed.
Lemma has_all_reads : forall tm k x, homed tm -> has_all tm k x -> reads_all (decls camel tm) k x.
Proof.
  intros tm k x H (ty & m & L & S & A). destruct (slot_declared tm k x ty m H L S) as [(n & ->)|(_ & B)].
  - destruct S as [_ ->]. discriminate.
  - exact (B A).
Qed.

(** * All of it together *)

(** The types of a grammar, at one of its rules. *)
Lemma rules_at : forall g pre kn r t, fine_grammar g -> fine_known kn -> In (r, t) g ->
  forall st st', walk_rules camel rand (walk_term camel rand) pre kn g st = COk st' ->
  exists i l1 l l2, tmap st' = adds (l1 ++ l ++ l2) (tmap st) /\ all_proper (l1 ++ l ++ l2) /\
    traces t (pre ++ go_name camel r)%string want_one i l.
Proof.
  induction g as [|[r0 t0] g IH]; intros pre kn r t [A B] FK I st st' E; [contradiction|]. cbn [walk_rules] in E.
  simpl in A, B. apply andb_true_iff in A as [A1 A2]. apply andb_true_iff in B as [B1 B2].
  apply andb_true_iff in A1 as [A0 A1]. apply andb_true_iff in B1 as [B0 B1].
  assert (FR : fine r0) by (apply fine_not; auto).
  set (typ := (pre ++ go_name camel r0)%string) in *.
  destruct (walk_term camel rand t0 typ want_one (aset "@"%string (KStack r0 typ) kn) (rand (drawn st)) (mkT (tmap st) (S (drawn st))))
    as [st1| |] eqn:E1; try discriminate. cbn [cbind] in E.
  assert (FA : fine_known (aset "@"%string (KStack r0 typ) kn)) by (apply fine_aset; auto).
  destruct (walk_adds t0 (conj A1 B1) typ want_one (aset "@"%string (KStack r0 typ) kn) _ FA (or_introl eq_refl) _ _ E1) as (l & T & PR & TR). cbn [tmap] in T.
  destruct (finish_rule camel r0 typ st1) as [st2| |] eqn:E2; try discriminate. cbn [cbind] in E.
  assert (X : exists l2, tmap st2 = adds l2 (tmap st1) /\ all_proper l2).
  { unfold finish_rule in E2. destruct (lookup _ _); try discriminate. inversion E2; subst. destruct (stack_addition _ _ _).
    - exists [(typ, GStackRef r0 typ)]. split; [reflexivity|]. constructor; [exact FR|constructor].
    - exists []. split; [reflexivity|constructor]. }
  destruct X as (l2 & T2 & PR2). destruct I as [I|I].
  - inversion I; subst r0 t0. destruct (rules_adds g) with (pre := pre) (kn := kn) (st := st2) (st' := st') as (l3 & T3 & PR3 & _); auto.
    { apply Forall_forall. intros kv _. apply walk_adds. } { now split. }
    exists (rand (drawn st)), [], l, (l2 ++ l3)%list. simpl. split; [rewrite !adds_app; congruence|]. split; auto.
    apply Forall_app. split; auto. apply Forall_app. auto.
  - destruct (IH pre kn r t (conj A2 B2) FK I _ _ E) as (i & m1 & m & m2 & T3 & PR3 & TR3).
    exists i, (l ++ l2 ++ m1)%list, m, m2. split; [|split; auto].
    + rewrite !adds_app in *. congruence.
    + repeat rewrite <- app_assoc. apply Forall_app. split; auto. apply Forall_app. auto.
Qed.

Definition rule_type (r : string) : string := go_type_name (go_name camel r).
Lemma proper_nil : proper_types [].
Proof. intros k ty E. discriminate. Qed.
Lemma make_types_at : forall g tm r t, proper_names g -> make_types camel rand g = COk tm -> In (r, t) g ->
  homed tm /\ proper_types tm /\ exists i l1 l l2, tm = adds (l1 ++ l ++ l2) [] /\ all_proper (l1 ++ l ++ l2) /\ traces t (go_name camel r) want_one i l.
Proof.
  intros g tm r t (N1 & N2 & _) E I. unfold make_types in E.
  destruct (walk_rules camel rand (walk_term camel rand) "" (merge_known camel "" g []) g (mkT [] 0)) as [st| |] eqn:W; try discriminate.
  inversion E; subst tm. assert (FK : fine_known (merge_known camel "" g [])) by (apply fine_merge; intros ? ? ? X; discriminate).
  destruct (rules_at g "" _ r t (conj N1 N2) FK I _ _ W) as (i & l1 & l & l2 & T & PR & TR). cbn [tmap] in T.
  split; [|split].
  - refine (keeps_rules homed homed_add g _ _ _ _ _ W homed_nil). apply Forall_forall. intros kv _. apply (walk_keeps homed homed_add).
  - rewrite T. apply adds_proper; auto using proper_nil.
  - exists i, l1, l, l2. auto.
Qed.

(** Trees use the names of the term. *)
Lemma fits_turns_names : forall x lits, (lits = true -> x <> ""%string) ->
  (forall gs t v ks, fits gs t v ks -> open_term lits t = true -> In x ks -> In x (map fst (turns t))) /\
  (forall gs ts cs ks, fits_all gs ts cs ks -> forallb (open_term lits) ts = true -> In x ks -> In x (map fst (flat_map turns ts))) /\
  (forall gs t cs ks, fits_many gs t cs ks -> open_term lits t = true -> In x ks -> In x (map fst (turns t))) /\
  (forall gs t sep cs ks, fits_turns gs t sep cs ks -> open_term lits t = true -> open_term lits sep = true -> In x ks ->
     In x (map fst (turns t)) \/ In x (map fst (turns sep))).
Proof.
  intros x lits LX. apply fits_mutind; cbn [open_term turns]; intros; auto; try contradiction.
  - clear -H H0 H1 H2 H3. apply nth_error_In in H. apply in_map_iff. induction ts as [|u ts IH]; [contradiction|]. simpl in *.
    apply andb_true_iff in H2 as [A B]. destruct H as [->|H].
    + apply H1 in H3; auto. apply in_map_iff in H3 as (y & E & I). exists y. split; auto. apply in_or_app. auto.
    + destruct (IH H B) as (y & E & I). exists y. split; auto. apply in_or_app. auto.
  - apply andb_true_iff in H1 as [A B]. rewrite map_app. apply in_or_app.
    destruct (H0 A ltac:(destruct sep; try discriminate; auto; destruct sep; try discriminate; auto) H2) as [I|I]; auto.
    destruct sep; try discriminate; auto; simpl in I.
    + destruct I as [<-|[]]. destruct (LX B eq_refl).
    + destruct sep; try discriminate. simpl in I. destruct I as [<-|[]]. destruct (LX B eq_refl).
  - simpl in *. apply andb_true_iff in H3 as [A B]. rewrite map_app. apply in_or_app. apply in_app_or in H4 as [I|I]; auto.
  - apply in_app_or in H4 as [I|I]; auto.
  - destruct (H0 H2 H1 H3); auto.
  - apply in_app_or in H5 as [I|I]; auto. destruct (H2 H4 H3 I); auto.
Qed.
Lemma turns_fine : forall t x b, fine_term t -> In (x, b) (turns t) -> x = ""%string \/ fine x.
Proof.
  assert (L : forall ts, Forall (fun t => forall x b, fine_term t -> In (x, b) (turns t) -> x = ""%string \/ fine x) ts ->
    forallb (without "") ts = true -> forallb (without "Token") ts = true -> forall x b, In (x, b) (flat_map turns ts) -> x = ""%string \/ fine x).
  { intros ts F. induction F as [|t ts H F IH]; simpl; intros A B x b I; [contradiction|].
    apply andb_true_iff in A as [A1 A2]. apply andb_true_iff in B as [B1 B2]. apply in_app_or in I as [I|I]; [apply (H x b); auto; now split|eauto]. }
  induction t using term_ind'; intros x b [A B] I; simpl in A, B, I;
    try (destruct I as [E|[]]; inversion E; subst; auto; right; apply fine_not; auto; fail); try contradiction.
  - apply (L ts H A B x b I).
  - apply (L ts H A B x b I).
  - apply andb_true_iff in A as [A1 A2]. apply andb_true_iff in B as [B1 B2]. apply in_app_or in I as [I|I]; [apply (IHt1 x b); auto; now split|].
    destruct t2; try contradiction. destruct I as [E|[]]. inversion E; subst. simpl in A2, B2. apply andb_true_iff in A2 as [A2 _]. apply andb_true_iff in B2 as [B2 _].
    right. apply fine_not. auto.
  - apply (IHt x b); auto. now split.
  - apply (IHt x b); auto. now split.
  - apply andb_true_iff in A as [A1 A2]. apply andb_true_iff in B as [B1 B2]. destruct I as [E|[]]; inversion E; subst. right. apply fine_not. auto.
  - apply andb_true_iff in A as [A1 A2]. apply andb_true_iff in B as [B1 B2]. apply (IHt x b); auto. now split.
  - apply (IHt x b); auto. now split.
Qed.
Lemma fits_most : forall x,
  (forall gs t v ks, fits gs t v ks -> most x t <= 1 -> count_occ string_dec ks x <= most x t) /\
  (forall gs ts cs ks, fits_all gs ts cs ks -> fold_right (fun t a => most x t + a) 0 ts <= 1 ->
     count_occ string_dec ks x <= fold_right (fun t a => most x t + a) 0 ts) /\
  (forall gs t cs ks, fits_many gs t cs ks -> most x t <= 1 -> count_occ string_dec ks x <= length cs * most x t) /\
  (forall gs t sep cs ks, fits_turns gs t sep cs ks -> most x t = 0 -> most x sep = 0 -> count_occ string_dec ks x = 0).
Proof.
  intros x.
  assert (ONE : forall y, count_occ string_dec [y] x <= if_same x y).
  { intros y. simpl. unfold if_same. destruct (string_dec y x) as [->|N]; [now rewrite String.eqb_refl|lia]. }
  apply fits_mutind; cbn [most]; intros; auto.
  - apply nth_error_In in H. assert (L : most x t <= fold_right (fun t a => Nat.max (most x t) a) 0 ts).
    { clear -H. induction ts; simpl; [contradiction|]. destruct H as [->|H]; [lia|]. apply IHts in H. lia. }
    lia.
  - destruct (Nat.eqb_spec mx 1) as [->|N]; [|].
    + specialize (H0 H3). destruct H2 as [?|L]; [discriminate|]. destruct (most x t) as [|[|k]]; try lia.
    + assert (Z : most x t = 0) by lia. rewrite Z in *. specialize (H0 ltac:(lia)). lia.
  - rewrite H0 by lia. lia.
  - rewrite occ_app'. cbn [fold_right] in *. specialize (H0 ltac:(lia)). specialize (H2 ltac:(lia)). lia.
  - rewrite occ_app'. cbn [length]. specialize (H0 H3). specialize (H2 H3). lia.
  - rewrite occ_app'. rewrite H2 by auto. specialize (H0 ltac:(lia)). lia.
Qed.

Lemma without_term : forall n g r t, grammar_without n g = true -> In (r, t) g -> without n t = true.
Proof. intros n g r t W I. apply forallb_forall with (x := (r, t)) in W; auto. simpl in W. now apply andb_true_iff in W as [_ W]. Qed.

Lemma part_slot : forall g tm, proper_names g -> make_types camel rand g = COk tm -> forall r t, In (r, t) g ->
  forall x, In (x, false) (turns t) -> has_slot tm (rule_type r) x.
Proof.
  intros g tm N M r t I y J. destruct (make_types_at g tm r t N M I) as (HO & PT & i & l1 & l & l2 & T & PR & TR).
  apply Forall_app in PR as [P1 P2]. apply Forall_app in P2 as [P2 P3]. rewrite !adds_app in T.
  pose proof (adds_proper l1 [] proper_nil P1) as T1.
  assert (WA : without "@" t = true) by (destruct N as (_ & _ & N); apply (without_term _ _ _ _ N I)).
  pose proof (proj1 traces_turns _ _ _ _ _ TR (or_introl eq_refl) WA) as TK.
  assert (S : has_slot (adds l (adds l1 [])) (rule_type r) y).
  { clear -TK J T1 P2. revert T1 P2. generalize (adds l1 []). revert J. unfold rule_type. induction TK; intros J tm T1 P2.
    - contradiction.
    - destruct J as [J|J].
      + inversion J; subst. apply (new_slot (l0 ++ (go_name camel r, c) :: l2) tm _ c y m T1 P2); auto. apply in_or_app. right. now left.
      + rewrite adds_app. simpl. apply Forall_app in P2 as [Q1 Q2]. inversion Q2; subst. apply IHTK; auto. apply add_proper; auto. now apply adds_proper.
    - destruct J as [J|J]; [discriminate|].
      rewrite adds_app. simpl. apply Forall_app in P2 as [Q1 Q2]. inversion Q2; subst. apply IHTK; auto. apply add_proper; auto. now apply adds_proper. }
  rewrite T. now apply adds_has_slot.
Qed.
Lemma every_child : forall g ds, proper_names g -> generated_types camel rand g = COk ds -> forall r t, In (r, t) g ->
  forall lits, open_term lits t = true -> forall gs v ks, fits gs t v ks -> forall x, In x ks -> (lits = true -> x <> ""%string) ->
  reads_child ds (rule_type r) x.
Proof.
  intros g ds N E r t I lits O gs v ks F x X LX. unfold generated_types in E. destruct (make_types camel rand g) as [tm| |] eqn:M; try discriminate.
  inversion E; subst ds. destruct (make_types_at g tm r t N M I) as (HO & PT & i & l1 & l & l2 & T & PR & TR).
  pose proof (proj1 (fits_turns_names x lits LX) _ _ _ _ F O X) as NM. apply in_map_iff in NM as ([y b] & <- & J). cbn [fst].
  apply Forall_app in PR as [P1 P2]. apply Forall_app in P2 as [P2 P3]. rewrite !adds_app in T.
  pose proof (adds_proper l1 [] proper_nil P1) as T1.
  assert (WA : without "@" t = true) by (destruct N as (_ & _ & N); apply (without_term _ _ _ _ N I)).
  pose proof (proj1 traces_turns _ _ _ _ _ TR (or_introl eq_refl) WA) as TK. destruct b.
  - destruct (tracks_back _ _ _ TK y J) as (p' & K). destruct (new_back l (adds l1 []) _ _ _ T1 P2 K) as [S|S].
    + apply has_slot_reads; auto. rewrite T. now apply adds_has_slot.
    + apply has_back_reads; auto. rewrite T. now apply adds_has_back.
  - apply has_slot_reads; auto. apply (part_slot g tm N M r t I y J).
Qed.

Lemma turns_unnamed : forall t, without "" t = true -> forall b, In (""%string, b) (turns t) -> b = false.
Proof.
  assert (L : forall ts, Forall (fun t => without "" t = true -> forall b, In (""%string, b) (turns t) -> b = false) ts ->
    forallb (without "") ts = true -> forall b, In (""%string, b) (flat_map turns ts) -> b = false).
  { intros ts F. induction F as [|t ts H F IH]; simpl; intros A b I; [contradiction|].
    apply andb_true_iff in A as [A1 A2]. apply in_app_or in I as [I|I]; auto. }
  induction t using term_ind'; simpl; intros A b I; try contradiction;
    try (destruct I as [E|[]]; inversion E; subst; auto; discriminate).
  - apply (L ts H A b I).
  - apply (L ts H A b I).
  - apply andb_true_iff in A as [A1 A2]. apply in_app_or in I as [I|I]; auto.
    destruct t2; try contradiction. destruct I as [E|[]]. now inversion E.
  - auto.
  - auto.
  - apply andb_true_iff in A as [A1 A2]. auto.
  - auto.
Qed.
Lemma echo_none : forall l, (forall b, In (""%string, b) l -> b = false) -> forall seen, echoed "" seen l = true -> False.
Proof.
  induction l as [|[y b] l IH]; simpl; intros H seen E; [discriminate|]. destruct y as [|c y].
  - rewrite (H b) in E by auto. simpl in E. apply (IH ltac:(intros; apply H; auto) _ E).
  - apply (IH ltac:(intros; apply H; auto) _ E).
Qed.
Lemma noticed_has_all : forall t p i l tm x, proper_types tm -> all_proper l -> traces t p want_one i l -> without "@" t = true -> without "" t = true ->
  x = ""%string \/ fine x -> noticed x t = true -> has_all (adds l tm) (go_type_name p) x.
Proof.
  intros t p i l tm x T P TR WA WE FX NT. unfold noticed in NT. apply orb_true_iff in NT as [NT|NT]; [apply orb_true_iff in NT as [NT|NT]; [apply orb_true_iff in NT as [NT|NT]|]|].
  - apply existsb_exists in NT as (y & I & E). apply String.eqb_eq in E. subst y.
    destruct (proj1 traces_repeated _ _ _ _ _ TR (or_introl eq_refl) WA x I) as (c & m & J & C & PU & A).
    destruct (new_slot l tm p c x m T P J C PU) as [_ S]. auto.
  - pose proof (proj1 traces_turns _ _ _ _ _ TR (or_introl eq_refl) WA) as TK. destruct FX as [->|FX].
    + exfalso. apply (echo_none _ ltac:(intros b I; apply (turns_unnamed t WE b I)) false NT).
    + apply (tracks_echo p x _ l TK FX false); auto. discriminate.
  - destruct (proj1 (traces_alternative x) _ _ _ _ _ TR eq_refl WA NT) as (j & l1 & l2 & -> & (c & B) & H).
    apply Forall_app in P as [P1 P2]. rewrite adds_app. apply (hits_all p x j); auto; [now apply adds_proper|]. left. now apply (adds_birth l1 tm p c).
  - assert (D : x <> ""%string -> two x (direct t) = true).
    { intros NE. destruct (first_token t) as [[]|] eqn:FT; auto. destruct (direct t) as [|y d] eqn:DT; auto.
      destruct (first_some t WA FT) as (d' & E). rewrite DT in E. inversion E; subst y d'. unfold two in *. cbn [count_occ]. destruct (string_dec "" x) as [Q|Q]; [congruence|exact NT]. }
    destruct (string_dec x ""%string) as [->|NE].
    + destruct (first_token t) as [b|] eqn:FT.
      * destruct (proj1 traces_first_hits _ _ _ _ _ TR eq_refl WA WE b FT) as (l1 & c & l2 & -> & H).
        apply Forall_app in P as [P1 P2]. inversion P2; subst. rewrite adds_app. simpl.
        apply (hits_all p ""%string i).
        -- apply add_proper; auto. now apply adds_proper.
        -- auto.
        -- left. rewrite lookup_add, String.eqb_refl. discriminate.
        -- apply (hits_less _ _ _ _ _ H 2). apply Nat.leb_le. destruct b; auto.
      * rewrite (first_none t WA FT) in NT. discriminate.
    + apply (hits_all p x i); auto. apply (hits_less _ _ _ _ _ (proj1 (traces_direct x) _ _ _ _ _ TR eq_refl WA) 2). apply Nat.leb_le. now apply D.
Qed.

Lemma noticed_all : forall g tm, proper_names g -> make_types camel rand g = COk tm -> forall r t, In (r, t) g ->
  forall x, In x (map fst (turns t)) -> noticed x t = true -> has_all tm (rule_type r) x.
Proof.
  intros g tm N M r t I x IX NT. destruct (make_types_at g tm r t N M I) as (HO & PT & i & l1 & l & l2 & T & PR & TR).
  apply Forall_app in PR as [P1 P2]. apply Forall_app in P2 as [P2 P3]. rewrite !adds_app in T.
  destruct N as (N1 & N2 & N3). pose proof (without_term _ _ _ _ N3 I) as WA. pose proof (without_term _ _ _ _ N1 I) as WE. pose proof (without_term _ _ _ _ N2 I) as WT.
  apply in_map_iff in IX as ([y b] & <- & J). cbn [fst] in *. pose proof (turns_fine t y b (conj WE WT) J) as FX.
  rewrite T. apply adds_has_all. apply (noticed_has_all t (go_name camel r) i l); auto. apply adds_proper; auto using proper_nil.
Qed.
Lemma every_noticed : forall g ds, proper_names g -> generated_types camel rand g = COk ds -> forall r t, In (r, t) g ->
  forall x, In x (map fst (turns t)) -> noticed x t = true -> reads_all ds (rule_type r) x.
Proof.
  intros g ds N E r t I x IX NT. unfold generated_types in E. destruct (make_types camel rand g) as [tm| |] eqn:M; try discriminate.
  inversion E; subst ds. apply has_all_reads; [apply (make_types_at g tm r t N M I)|]. now apply (noticed_all g tm N M r t).
Qed.
End Builder.
