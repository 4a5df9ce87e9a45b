(** Making the types of a grammar whose references are known. *)
From Verif Require Import Base Scanner Syntax Resolve Compile Codegen Types TypesSpec TypesProofs.
Local Open Scope string_scope.

Section Builder.
  Variables (camel : string -> string) (rand : nat -> Z).
  Notation go_type_name := (go_type_name camel).
  Notation walk_term := (walk_term camel rand).

  Definition covers (sc : list string) (kn : knowns) : Prop :=
    (exists x p, lookup "@" kn = Some (KStack x p)) /\ forall r, In r sc -> r <> "@" -> exists T, lookup r kn = Some (KType T).
  Definition there (k : string) (st : tstate) : Prop := lookup k (tmap st) <> None.
  Definition grows (st st' : tstate) : Prop := forall k, there k st -> there k st'.

  (** The types that are returned are there or among the expected [W]. *)
  Definition ret_of (c : gchild) : option string :=
    match c with GStackRef _ p => Some p | GRef _ _ r _ => Some r | _ => None end.
  Definition owed (W : string -> Prop) (st : tstate) : Prop := forall k ty c R, lookup k (tmap st) = Some ty -> In c (type_children ty) ->
    ret_of c = Some R -> there (go_type_name R) st \/ W (go_type_name R).
  Definition expected (W : string -> Prop) (kn : knowns) : Prop := forall r,
    match lookup r kn with Some (KType T) => W (go_type_name T) | Some (KStack _ p) => W (go_type_name p) | None => True end.
  Definition owes (tops : list string) (kn : knowns) (st st' : tstate) : Prop :=
    forall W : string -> Prop, (forall r, In r tops -> W (go_type_name r)) -> expected W kn -> owed W st -> owed W st'.
  Definition runs (t : term) : Prop := forall sc parent q kn id st, covers sc kn -> settled sc t = true ->
    exists st', walk_term t parent q kn id st = COk st' /\ grows st st' /\ (shows t = true -> there (go_type_name parent) st') /\
      forall tops, returned tops t = true -> owes tops kn st st'.

  Lemma grows_refl : forall st, grows st st. Proof. intros st k H. exact H. Qed.
  Lemma grows_trans : forall a b c, grows a b -> grows b c -> grows a c. Proof. intros a b c A B k H. auto. Qed.
  Lemma owes_refl : forall tops kn st, owes tops kn st st. Proof. intros tops kn st W _ _ H. exact H. Qed.
  Lemma owes_trans : forall tops kn a b c, owes tops kn a b -> owes tops kn b c -> owes tops kn a c.
  Proof. intros tops kn a b c A B W T E H. apply B; auto. Qed.
  Lemma owes_drawn : forall tops kn st n, owes tops kn st (mkT (tmap st) n).
  Proof. intros tops kn st n W _ _ H. exact H. Qed.
  Lemma push_grows : forall p c st, grows st (push camel p c st).
  Proof.
    intros p c st k H. unfold there, push, add_child in *. cbn [tmap].
    destruct (string_dec (go_type_name p) k) as [<-|N]; [rewrite lookup_aset_eq; discriminate|now rewrite lookup_aset_neq].
  Qed.
  Lemma push_there : forall p c st, there (go_type_name p) (push camel p c st).
  Proof. intros p c st. unfold there, push, add_child. cbn [tmap]. rewrite lookup_aset_eq. discriminate. Qed.
  Lemma check_ret : forall cs next c R, In c (check_dupes cs next) -> ret_of c = Some R ->
    ret_of next = Some R \/ exists c', In c' cs /\ ret_of c' = Some R.
  Proof.
    intros cs next c R I E. destruct (check_dupes_eq cs next) as [(Q & _)|Q]; rewrite Q in I; eauto.
    apply in_app_or in I as [I|I].
    - right. apply in_map_iff in I as (c' & <- & I). exists c'. split; auto. rewrite <- E. unfold bump. destruct (String.eqb _ _); auto. now destruct c'.
    - destruct (existsb _ _); [contradiction|]. destruct I as [->|[]]. auto.
  Qed.
  Lemma push_owed : forall W p c st, owed W st -> (forall R, ret_of c = Some R -> there (go_type_name R) st \/ W (go_type_name R)) ->
    owed W (push camel p c st).
  Proof.
    intros W p c st O H k ty d R L I E.
    assert (X : there (go_type_name R) st \/ W (go_type_name R)); [|destruct X; auto; left; now apply push_grows].
    unfold push, add_child in L. cbn [tmap] in L. destruct (string_dec (go_type_name p) k) as [<-|N].
    - rewrite lookup_aset_eq in L. inversion L; subst ty. clear L. destruct (lookup (go_type_name p) (tmap st)) as [[n|n cs]|] eqn:L; simpl in I.
      + apply check_ret with (R := R) in I as [I|(c' & [<-|[]] & Q)]; auto. discriminate.
      + apply check_ret with (R := R) in I as [I|(c' & J & Q)]; auto. apply (O _ _ c' R L); auto.
      + destruct c; simpl in I; try (destruct I as [<-|[]]; auto; fail). destruct (t_one count); simpl in I; [contradiction|]. destruct I as [<-|[]]; auto.
    - rewrite lookup_aset_neq in L by auto. apply (O _ _ d R L); auto.
  Qed.
  Lemma push_owes : forall tops kn p c st, ret_of c = None -> owes tops kn st (push camel p c st).
  Proof. intros tops kn p c st E W _ _ O. apply push_owed; auto. intros R Q. congruence. Qed.
  Lemma drawn_grows : forall st n, grows st (mkT (tmap st) n). Proof. intros st n k H. exact H. Qed.
  Lemma covers_at : forall sc kn x p, (forall r, In r sc -> r <> "@" -> exists T, lookup r kn = Some (KType T)) ->
    covers sc (aset "@" (KStack x p) kn).
  Proof.
    intros sc kn x p H. split.
    - exists x, p. apply lookup_aset_eq.
    - intros r I N. rewrite lookup_aset_neq by auto. auto.
  Qed.
  Lemma merge_known_other : forall pre g kn k, ~ In k (map fst g) -> lookup k (merge_known camel pre g kn) = lookup k kn.
  Proof.
    intros pre. unfold merge_known. induction g as [|[r t] g IH]; simpl; intros kn k N; auto.
    rewrite IH by tauto. apply lookup_aset_neq. intros ->. tauto.
  Qed.
  Lemma merge_known_in : forall pre g kn k, In k (map fst g) -> lookup k (merge_known camel pre g kn) = Some (KType (pre ++ go_name camel k)).
  Proof.
    intros pre. unfold merge_known. induction g as [|[r t] g IH]; simpl; intros kn k I; [contradiction|].
    destruct (in_dec string_dec k (map fst g)) as [J|J]; auto.
    destruct I as [->|I]; [|contradiction]. pose proof (merge_known_other pre g (aset k (KType (pre ++ go_name camel k)) kn) k J) as E.
    unfold merge_known in E. now rewrite E, lookup_aset_eq.
  Qed.

  Lemma finish_grows : forall r typ st, there (go_type_name typ) st -> exists st', finish_rule camel r typ st = COk st' /\ grows st st' /\
    forall W, owed W st -> owed W st'.
  Proof.
    intros r typ st H. unfold finish_rule. pose proof H as H'. unfold there in H'. destruct (lookup _ _) as [ty|]; [|congruence].
    eexists. split; [reflexivity|]. destruct (stack_addition _ _ _); [|split; auto using grows_refl]. split; [apply push_grows|].
    intros W O. apply push_owed; auto. simpl. intros R E. inversion E; subst. auto.
  Qed.
  Definition targets (pre : string) (g : grammar) (k : string) : Prop := exists r, In r (map fst g) /\ k = go_type_name (pre ++ go_name camel r).
  (** All types of [g] are there after the walk; they can be returned before. *)
  Lemma rules_run : forall pre kn sc g, (forall r, In r sc -> r <> "@" -> exists T, lookup r kn = Some (KType T)) ->
    Forall (fun kv => runs (snd kv)) g -> forallb (fun kv => shows (snd kv) && settled sc (snd kv))%bool g = true ->
    forall st, exists st', walk_rules camel rand walk_term pre kn g st = COk st' /\ grows st st' /\
      (forall k, targets pre g k -> there k st') /\
      forall tops, forallb (fun kv => returned tops (snd kv)) g = true ->
      forall W : string -> Prop, (forall r, In r tops -> W (go_type_name r)) -> expected W kn -> (forall k, targets pre g k -> W k) ->
      owed W st -> owed W st'.
  Proof.
    intros pre kn sc g K F. induction F as [|[r t] g H F IH]; intros S st; cbn [walk_rules].
    - exists st. split; auto. split; auto using grows_refl. split; auto. intros k (r & [] & _).
    - simpl in S. apply andb_true_iff in S as [S1 S2]. apply andb_true_iff in S1 as [SH SE]. simpl in H.
      set (typ := (pre ++ go_name camel r)%string).
      destruct (H sc typ want_one (aset "@" (KStack r typ) kn) (rand (drawn st)) (mkT (tmap st) (Datatypes.S (drawn st)))
        (covers_at sc kn r typ K) SE) as (st1 & -> & G1 & T1 & O1). cbn [cbind].
      destruct (finish_grows r typ st1 (T1 SH)) as (st2 & -> & G2 & O2). cbn [cbind].
      destruct (IH S2 st2) as (st3 & -> & G3 & T3 & O3). exists st3. split; auto. split; [|split].
      + eapply grows_trans; [apply (drawn_grows st)|]. eapply grows_trans; [exact G1|]. eapply grows_trans; eauto.
      + intros k (q & [<-|I] & ->); [apply G3, G2, T1; auto|]. apply T3. exists q. auto.
      + simpl. intros tops R W WT WK WG O. apply andb_true_iff in R as [R1 R2].
        assert (Q : targets pre ((r, t) :: g) (go_type_name typ)) by (exists r; simpl; auto).
        apply (O3 tops); auto. { intros k (q & I & ->). apply WG. exists q. simpl. auto. }
        apply O2. apply (O1 tops R1 W); auto. intros x. destruct (string_dec "@" x) as [<-|N]; [rewrite lookup_aset_eq; auto|].
        rewrite lookup_aset_neq by auto. apply WK.
  Qed.

  Definition seq_of (parent : string) (q : tally) (kn : knowns) (id : Z) : list term -> tstate -> cres tstate :=
    fix walk_seq ts st := match ts with [] => COk st | t :: ts' => cbind (walk_term t parent q kn id st) (walk_seq ts') end.
  Lemma seq_runs : forall ts, Forall runs ts -> forall sc parent q kn id st, covers sc kn -> forallb (settled sc) ts = true ->
    exists st', seq_of parent q kn id ts st = COk st' /\ grows st st' /\ (existsb shows ts = true -> there (go_type_name parent) st') /\
      forall tops, forallb (returned tops) ts = true -> owes tops kn st st'.
  Proof.
    intros ts F. induction F as [|t ts H F IH]; intros sc parent q kn id st C S; cbn [seq_of].
    - exists st. split; auto. split; [apply grows_refl|]. split; [discriminate|]. intros. apply owes_refl.
    - simpl in S. apply andb_true_iff in S as [S1 S2]. destruct (H sc parent q kn id st C S1) as (st1 & -> & G1 & T1 & O1). cbn [cbind].
      destruct (IH sc parent q kn id st1 C S2) as (st2 & E & G2 & T2 & O2). exists st2. split; [exact E|]. split; [eapply grows_trans; eauto|]. split.
      + simpl. intros T. apply orb_true_iff in T as [T|T]; auto.
      + simpl. intros tops R. apply andb_true_iff in R as [R1 R2]. eapply owes_trans; eauto.
  Qed.
  Definition alts_of (parent : string) (q : tally) (kn : knowns) : list term -> tstate -> cres tstate :=
    fix alts ts st := match ts with
                      | [] => COk st
                      | t :: ts' => cbind (walk_term t parent q kn (rand (drawn st)) (mkT (tmap st) (Datatypes.S (drawn st)))) (alts ts')
                      end.
  Lemma alts_run : forall ts, Forall runs ts -> forall sc parent q kn st, covers sc kn -> forallb (settled sc) ts = true ->
    exists st', alts_of parent q kn ts st = COk st' /\ grows st st' /\ forall tops, forallb (returned tops) ts = true -> owes tops kn st st'.
  Proof.
    intros ts F. induction F as [|t ts H F IH]; intros sc parent q kn st C S; cbn [alts_of].
    - exists st. split; auto. split; [apply grows_refl|]. intros. apply owes_refl.
    - simpl in S. apply andb_true_iff in S as [S1 S2].
      destruct (H sc parent q kn (rand (drawn st)) (mkT (tmap st) (Datatypes.S (drawn st))) C S1) as (st1 & -> & G1 & T1 & O1). cbn [cbind].
      destruct (IH sc parent q kn st1 C S2) as (st2 & E & G2 & O2). exists st2. split; [exact E|]. split.
      + eapply grows_trans; [apply drawn_grows|]. eapply grows_trans; eauto.
      + simpl. intros tops R. apply andb_true_iff in R as [R1 R2]. eapply owes_trans; [apply owes_drawn|]. eapply owes_trans; eauto.
  Qed.

  (** Pushing a child without a type of its own. *)
  Lemma push_runs : forall p c st kn (b : bool), ret_of c = None -> exists st', COk (push camel p c st) = COk st' /\ grows st st' /\
    (b = true -> there (go_type_name p) st') /\ forall (tops : list string) (R : Prop), R -> owes tops kn st st'.
  Proof.
    intros p c st kn b E. eexists. split; [reflexivity|]. split; [apply push_grows|]. split; [intros _; apply push_there|].
    intros tops _ _. now apply push_owes.
  Qed.

  Lemma walk_runs : forall t, runs t.
  Proof.
    induction t using term_ind'; intros sc parent q kn id st C S; cbn [settled shows returned] in *; cbn [Types.walk_term].
    - destruct C as [(x & p & A) K]. cbn [leaf_type]. destruct (String.eqb_spec r "@") as [->|N]; simpl in S.
      + rewrite A. eexists. split; [reflexivity|]. split; [apply push_grows|]. split; [intros _; apply push_there|].
        intros tops _ W _ WK O. apply push_owed; auto. simpl. intros R E. inversion E; subst. right. specialize (WK "@"). now rewrite A in WK.
      + apply existsb_exists in S as (r' & I & E). apply String.eqb_eq in E. subst r'. destruct (K r I N) as (T & L). rewrite L.
        eexists. split; [reflexivity|]. split; [apply push_grows|]. split; [intros _; apply push_there|].
        intros tops _ W _ WK O. apply push_owed; auto. simpl. intros R E. inversion E; subst. right. specialize (WK r). now rewrite L in WK.
    - destruct (push_runs parent (GUnnamed parent (push_single id q)) st kn true eq_refl) as (st' & E & G & T & O). exists st'. eauto 6.
    - destruct (push_runs parent (GUnnamed parent (push_single id q)) st kn true eq_refl) as (st' & E & G & T & O). exists st'. eauto 6.
    - destruct (push_runs parent (GBackRef i parent) st kn true eq_refl) as (st' & E & G & T & O). exists st'. eauto 6.
    - exists st. split; auto. split; [apply grows_refl|]. split; [discriminate|]. intros. apply owes_refl.
    - exact (seq_runs ts H sc parent q kn id st C S).
    - destruct (alts_run ts H sc parent q kn (push camel parent (GChoice parent) st) C S) as (st' & E & G & O).
      exists st'. split; [exact E|]. split; [eapply grows_trans; [apply push_grows|exact G]|]. split.
      + intros _. apply G. apply push_there.
      + intros tops R. eapply owes_trans; [apply (push_owes tops kn parent (GChoice parent)); reflexivity|auto].
    - exact (seq_runs ts H sc parent q kn id st C S).
    - apply andb_true_iff in S as [S1 S2]. destruct (IHt1 sc parent want_all kn id st C S1) as (st1 & -> & G1 & T1 & O1). cbn [cbind].
      assert (Q : forall p, exists st', walk_term t2 p want_all kn id st1 = COk st' /\ grows st1 st' /\ (shows t2 = true -> there (go_type_name p) st') /\
        forall tops, returned tops t2 = true -> owes tops kn st1 st').
      { intros p. apply (IHt2 sc); auto. }
      assert (OT : forall st2, (forall tops, returned tops t2 = true -> owes tops kn st1 st2) ->
        forall tops, (returned tops t1 && returned tops t2)%bool = true -> owes tops kn st st2).
      { intros st2 O2 tops R. apply andb_true_iff in R as [R1 R2]. eapply owes_trans; eauto. }
      assert (TOK : forall n, grows st (push camel parent (GToken n parent q) st1) /\ there (go_type_name parent) (push camel parent (GToken n parent q) st1) /\
        forall tops, owes tops kn st1 (push camel parent (GToken n parent q) st1)).
      { intros n. split; [eapply grows_trans; [exact G1|apply push_grows]|]. split; [apply push_there|]. intros. now apply push_owes. }
      destruct t2; cbn [shows] in *;
        try (match goal with |- context [walk_term _ ?p want_all] => destruct (Q p) as (st2 & -> & G2 & T2 & O2) end;
             exists st2; split; [reflexivity|]; split; [eapply grows_trans; eauto|]; split; [|auto];
             intros T; apply orb_true_iff in T as [T|T]; try discriminate; auto; fail);
        try (exists st1; split; [reflexivity|]; split; auto; split; [intros T; apply orb_true_iff in T as [T|T]; try discriminate; auto|];
             apply OT; intros; apply owes_refl; fail).
      destruct t2;
        try (destruct (TOK name) as (A1 & A2 & A3); eexists; split; [reflexivity|]; split; [exact A1|]; split; [auto|]; apply OT; auto; fail);
        destruct (Q parent) as (st2 & -> & G2 & T2 & O2); exists st2; (split; [reflexivity|]); (split; [eapply grows_trans; eauto|]); split; auto.
    - apply (IHt sc); auto.
    - apply (IHt sc); auto.
    - assert (Q : forall p, exists st', walk_term t p q kn id st = COk st' /\ grows st st' /\ (shows t = true -> there (go_type_name p) st') /\
        forall tops, returned tops t = true -> owes tops kn st st').
      { intros p. exact (IHt sc p q kn id st C S). }
      set (child := (parent ++ go_name camel n)%string) in *.
      assert (G : exists st', cbind (walk_term t child q kn id st) (fun st => COk (push camel parent (GRef n parent child q) st)) = COk st' /\
        grows st st' /\ (true = true -> there (go_type_name parent) st') /\ forall tops, (shows t && returned tops t)%bool = true -> owes tops kn st st').
      { destruct (Q child) as (st2 & -> & G2 & T2 & O2). cbn [cbind]. eexists. split; [reflexivity|].
        split; [eapply grows_trans; [exact G2|apply push_grows]|]. split; [intros _; apply push_there|].
        intros tops R. apply andb_true_iff in R as [R1 R2]. intros W WT WK O. apply push_owed; [apply (O2 tops); auto|].
        simpl. intros R E. inversion E; subst. left. auto. }
      assert (P : exists st', COk (push camel parent (GToken n parent q) st) = COk st' /\
        grows st st' /\ (true = true -> there (go_type_name parent) st') /\ forall tops, true = true -> owes tops kn st st').
      { destruct (push_runs parent (GToken n parent q) st kn true eq_refl) as (st' & E & G' & T & O). exists st'. eauto 6. }
      destruct t; auto.
      destruct (String.eqb_spec r "@") as [->|N].
      + destruct C as [(x & p & A) K]. rewrite A. eexists. split; [reflexivity|]. split; [apply push_grows|]. split; [intros _; apply push_there|].
        intros tops _ W _ WK O. apply push_owed; auto. simpl. intros R E. inversion E; subst. right. specialize (WK "@"). now rewrite A in WK.
      + eexists. split; [reflexivity|]. split; [apply push_grows|]. split; [intros _; apply push_there|].
        intros tops R W WT WK O. simpl in R. apply existsb_exists in R as (r' & I & E). apply String.eqb_eq in E. subst r'.
        apply push_owed; auto. simpl. intros R E. inversion E; subst. auto.
    - apply andb_true_iff in S as [S1 S2]. destruct C as [(x & p & A) K].
      assert (NA : ~ In "@" (map fst g)).
      { intros I. apply in_map_iff in I as ([k u] & E & I). simpl in E. subst k. rewrite forallb_forall in S2. specialize (S2 _ I). discriminate. }
      assert (K' : forall r, In r (map fst g ++ sc)%list -> r <> "@" -> exists T, lookup r (merge_known camel parent g kn) = Some (KType T)).
      { intros r I N. destruct (in_dec string_dec r (map fst g)) as [J|J]; [rewrite merge_known_in; eauto|].
        rewrite merge_known_other by auto. apply in_app_or in I as [I|I]; [contradiction|auto]. }
      destruct (rules_run parent (merge_known camel parent g kn) _ g K' H) with (st := st) as (st1 & -> & G1 & T1 & O1).
      { rewrite forallb_forall in *. intros kv I. specialize (S2 _ I). apply andb_true_iff in S2 as [S2 S3]. apply andb_true_iff in S2 as [_ S2]. now rewrite S2, S3. }
      cbn [cbind]. destruct (fun C => IHt (map fst g ++ sc)%list parent q (merge_known camel parent g kn) id st1 C S1) as (st2 & -> & G2 & T2 & O2).
      { split; auto. exists x, p. now rewrite merge_known_other. }
      exists st2. split; auto. split; [eapply grows_trans; eauto|]. split; auto.
      intros tops R W WT WK O. apply andb_true_iff in R as [R1 R2].
      set (W' := fun k => W k \/ targets parent g k).
      assert (X : owed W' st2).
      { assert (EX : expected W' (merge_known camel parent g kn)).
        { intros r. destruct (in_dec string_dec r (map fst g)) as [J|J].
          - rewrite merge_known_in by auto. right. exists r. auto.
          - rewrite merge_known_other by auto. specialize (WK r). destruct (lookup r kn) as [[]|]; auto; now left. }
        apply (O2 tops); auto. { intros r I. left. auto. }
        apply (O1 tops); auto. { intros r I. left. auto. } { intros k TG. now right. }
        intros k ty c R L I E. destruct (O k ty c R L I E); auto. right. now left. }
      intros k ty c R L I E. destruct (X k ty c R L I E) as [Y|[Y|Y]]; auto.
    - apply (IHt sc); auto.
  Qed.

  Theorem types_made : forall g, settled_grammar g = true -> exists ds, generated_types camel rand g = COk ds.
  Proof.
    intros g S. unfold generated_types, make_types.
    destruct (rules_run "" (merge_known camel "" g []) (map fst g) g) with (st := mkT [] 0) as (st & -> & _); auto.
    - intros r I _. rewrite merge_known_in; eauto.
    - apply Forall_forall. intros kv _. apply walk_runs.
    - cbn [cbind]. eauto.
  Qed.

  Lemma decl_of : forall tm T n m, homed camel tm -> In (DMethod T n m) (decls camel tm) -> forall R, result_type m = Some R ->
    exists k ty c R', lookup k tm = Some ty /\ In c (type_children ty) /\ ret_of c = Some R' /\ R = go_type_name R'.
  Proof.
    intros tm T n m HO I R E. unfold decls in I. apply in_flat_map in I as (k & _ & I).
    destruct (lookup k tm) as [ty|] eqn:L; [|contradiction]. destruct ty as [b|b cs]; simpl in I.
    - destruct I as [I|[I|[]]]; inversion I; subst. discriminate.
    - destruct I as [I|I]; [discriminate|]. apply in_flat_map in I as (c & J & I). apply (proj1 (sort_children_in _ _)) in J.
      exists k, (GRule b cs), c.
      assert (G : forall recv suffix child ret t, In (DMethod T n m) (getters recv suffix child ret t) -> ret = Some R).
      { intros recv suffix child ret t X. unfold getters in X. apply in_app_or in X as [X|X]; destruct (_ : bool) in X; try contradiction;
          destruct X as [X|[]]; inversion X; subst; exact E. }
      destruct c; cbn [child_decls] in I; try (destruct I as [I|[]]; inversion I; subst; discriminate);
        apply G in I; inversion I; subst; eexists; (split; [exact L|]); (split; [exact J|]); split; reflexivity.
  Qed.
  Lemma there_declared : forall tm k, homed camel tm -> lookup k tm <> None -> In (DType k) (decls camel tm).
  Proof.
    intros tm k HO L. destruct (lookup k tm) as [ty|] eqn:E; [|congruence]. destruct (HO k ty E) as (K & N & _).
    apply (in_decls camel tm k ty _ E). destruct ty; subst; left; now rewrite K.
  Qed.
  Theorem results_declared : forall g tops ds, settled_grammar g = true ->
    (forall r, In r tops -> In r (map fst g) /\ go_name camel (go_name camel r) = go_name camel r) ->
    forallb (fun kv => returned tops (snd kv)) g = true -> generated_types camel rand g = COk ds ->
    forall T n m R, In (DMethod T n m) ds -> result_type m = Some R -> In (DType R) ds.
  Proof.
    intros g tops ds S TP RT E T n m R I RM. unfold generated_types, make_types in E.
    destruct (rules_run "" (merge_known camel "" g []) (map fst g) g) with (st := mkT [] 0) as (st & W & _ & TG & O); auto.
    - intros r J _. rewrite merge_known_in; eauto.
    - apply Forall_forall. intros kv _. apply walk_runs.
    - rewrite W in E. cbn [cbind] in E. inversion E; subst ds. clear E.
      assert (HO : homed camel (tmap st)).
      { refine (keeps_rules camel rand (homed camel) (homed_add camel) g _ _ _ _ _ W (homed_nil camel)). apply Forall_forall. intros kv _. apply (walk_keeps camel rand (homed camel) (homed_add camel)). }
      destruct (decl_of _ _ _ _ HO I R RM) as (k & ty & c & R' & L & J & RC & ->). apply there_declared; auto.
      destruct (O tops RT (targets "" g)) with (k := k) (ty := ty) (c := c) (R := R') as [Y|Y]; auto.
      + intros r IR. destruct (TP r IR) as [A B]. exists r. split; auto. simpl. unfold Types.go_type_name. now rewrite B.
      + intros r. destruct (in_dec string_dec r (map fst g)) as [Q|Q].
        * rewrite merge_known_in by auto. exists r. auto.
        * rewrite merge_known_other by auto. exact Logic.I.
      + intros k' ty' c' R2 L'. discriminate.
      + now apply TG.
  Qed.
End Builder.
