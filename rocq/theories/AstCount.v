(** The counters of ast/counter.go against the trees of a term. *)
From Verif Require Import Base Scanner Syntax Resolve PegSpec Ast AstSpec AstProofs.

(** The upper number a term contributes to a name. *)
Fixpoint hi (t : term) (n : string) : nat :=
  match t with
  | TS _ | TRE _ => if String.eqb n "" then 1 else 0
  | TRule r => if String.eqb n r then 1 else 0
  | TNamed m _ => if String.eqb n m then 1 else 0
  | TREF i _ => if String.eqb n i then 2 else 0
  | TExtRef s => if String.eqb n s then 1 else 0
  | TSeq ts => fold_right (fun t a => hi t n + a) 0 ts
  | TOneof ts => fold_right (fun t a => Nat.max (hi t n) a) 0 ts
  | TStack _ => 0
  | TDelim t sep _ _ _ => 2 * hi t n + 2 * hi sep n
  | TQuant t _ mx => (if Nat.eqb mx 0 then 2 else mx) * hi t n
  | TScoped t _ => 2 * hi t n
  | TLookAhead t | TCut t => hi t n
  end.

Definition top (ctrs : counters) (n : string) : nat := snd (ctr ctrs n).

Lemma keys_aset : forall A k (v : A) l x, In x (keys (aset k v l)) -> x = k \/ In x (keys l).
Proof.
  induction l as [|[k' v'] l IH]; simpl; intros x I; [intuition|].
  destruct (String.eqb_spec k k') as [->|N]; simpl in *; intuition. apply IH in H. intuition.
Qed.
Lemma NoDup_aset : forall A k (v : A) l, NoDup (keys l) -> NoDup (keys (aset k v l)).
Proof.
  induction l as [|[k' v'] l IH]; simpl; intros N; [repeat constructor; auto|].
  inversion N; subst. destruct (String.eqb_spec k k') as [->|Q]; simpl; constructor; auto.
  intros I. apply keys_aset in I as [->|I]; auto.
Qed.

Lemma ctr_aset : forall m k c n, ctr (aset k c m) n = if String.eqb n k then c else ctr m n.
Proof.
  intros m k c n. unfold ctr. destruct (String.eqb_spec n k) as [->|N].
  - now rewrite lookup_aset_eq.
  - rewrite lookup_aset_neq; auto.
Qed.
Lemma top_count : forall m k c n, top (count m k c) n = top m n + (if String.eqb n k then snd c else 0).
Proof.
  intros m k c n. unfold top, count. rewrite ctr_aset. destruct (String.eqb_spec n k) as [->|N]; simpl; lia.
Qed.
Lemma count_NoDup : forall m k c, NoDup (keys m) -> NoDup (keys (count m k c)).
Proof. intros. now apply NoDup_aset. Qed.

Lemma top_nil : forall n, top [] n = 0.
Proof. reflexivity. Qed.
Lemma top_cons : forall k c ds n, top ((k, c) :: ds) n = if String.eqb n k then snd c else top ds n.
Proof. intros. unfold top, ctr. simpl. destruct (String.eqb n k); auto. Qed.
Lemma top_none : forall ds n, ~ In n (keys ds) -> top ds n = 0.
Proof. intros ds n N. apply lookup_None in N. unfold top, ctr. now rewrite N. Qed.

Lemma mul_top : forall ds m p n, NoDup (keys ds) -> top (counters_mul m ds p) n = top m n + snd p * top ds n.
Proof.
  unfold counters_mul. induction ds as [|[k c] ds IH]; intros m p n N; simpl.
  - rewrite top_nil. lia.
  - inversion N; subst. rewrite IH by auto. rewrite top_count, top_cons.
    destruct (String.eqb_spec n k) as [->|Q]; [|lia]. rewrite (top_none ds k) by auto. unfold cmul. simpl. lia.
Qed.
Lemma mul_NoDup : forall ds m p, NoDup (keys m) -> NoDup (keys (counters_mul m ds p)).
Proof. unfold counters_mul. induction ds as [|[k c] ds IH]; intros; simpl; auto. apply IH. now apply count_NoDup. Qed.

Lemma cunion_top : forall c d, snd (cunion c d) = Nat.max (snd c) (snd d).
Proof. intros [a b] [c d]. unfold cunion. simpl. destruct (Nat.ltb_spec b d); lia. Qed.
Lemma union_top : forall o m n, NoDup (keys o) -> top (counters_union m o) n = Nat.max (top m n) (top o n).
Proof.
  unfold counters_union. induction o as [|[k c] o IH]; intros m n N; simpl.
  - rewrite top_nil. lia.
  - inversion N; subst. rewrite IH by auto. rewrite top_cons. unfold top at 1. rewrite ctr_aset.
    destruct (String.eqb_spec n k) as [->|Q]; [|reflexivity].
    rewrite cunion_top, (top_none o k) by auto. fold (top m k). lia.
Qed.
Lemma union_NoDup : forall o m, NoDup (keys m) -> NoDup (keys (counters_union m o)).
Proof. unfold counters_union. induction o as [|[k c] o IH]; intros; simpl; auto. apply IH. now apply NoDup_aset. Qed.

(** Counting never fails without stacks and computes [hi]. *)
Lemma count_children_top : forall t, no_stack t = true -> forall p m, NoDup (keys m) ->
  exists m', count_children t p m = COk m' /\ NoDup (keys m') /\ forall n, top m' n = top m n + snd p * hi t n.
Proof.
  assert (ONE : forall k c m, NoDup (keys m) -> exists m', COk (count m k c) = COk m' /\ NoDup (keys m') /\
            forall n, top m' n = top m n + (if String.eqb n k then snd c else 0)).
  { intros k c m N. eexists. split; [reflexivity|]. split; [now apply count_NoDup|]. intros n. apply top_count. }
  induction t using term_ind'; intros NS p m N; cbn [count_children hi].
  - destruct (ONE r p m N) as (m' & E & D & T). exists m'. split; auto. split; auto. intros n. rewrite T. destruct (String.eqb n r); lia.
  - destruct (ONE ""%string p m N) as (m' & E & D & T). exists m'. split; auto. split; auto. intros n. rewrite T. destruct (String.eqb n ""); lia.
  - destruct (ONE ""%string p m N) as (m' & E & D & T). exists m'. split; auto. split; auto. intros n. rewrite T. destruct (String.eqb n ""); lia.
  - destruct (ONE i (cmul p oneOrMore) m N) as (m' & E & D & T). exists m'. split; auto. split; auto. intros n. rewrite T. simpl. destruct (String.eqb n i); lia.
  - destruct (ONE s p m N) as (m' & E & D & T). exists m'. split; auto. split; auto. intros n. rewrite T. destruct (String.eqb n s); lia.
  - simpl in NS. revert m N. induction H as [|t ts IH F IHts]; intros m N; simpl.
    + exists m. split; auto. split; auto. intros; lia.
    + simpl in NS. apply andb_true_iff in NS as [N1 N2]. destruct (IH N1 p m N) as (m1 & E1 & D1 & T1). rewrite E1. simpl.
      destruct (IHts N2 m1 D1) as (m2 & E2 & D2 & T2). exists m2. split; auto. split; auto. intros n. rewrite T2, T1. lia.
  - simpl in NS.
    assert (X : forall ds, NoDup (keys ds) ->
      exists ds', cfold (fun child ds => cbind (count_children child oneOne []) (fun n => COk (counters_union ds n))) ts ds = COk ds' /\
        NoDup (keys ds') /\ forall n, top ds' n = Nat.max (top ds n) (fold_right (fun t a => Nat.max (hi t n) a) 0 ts)).
    { clear m N. induction H as [|t ts IH F IHts]; intros ds N; cbn [cfold fold_right].
      - exists ds. split; auto. split; auto. intros; lia.
      - simpl in NS. apply andb_true_iff in NS as [N1 N2].
        destruct (IH N1 oneOne [] (NoDup_nil _)) as (m1 & E1 & D1 & T1). rewrite E1. cbn [cbind].
        destruct (IHts N2 (counters_union ds m1) (union_NoDup _ _ N)) as (ds' & E2 & D2 & T2).
        exists ds'. split; auto. split; auto. intros n. rewrite T2, union_top, T1 by auto. rewrite top_nil. simpl. lia. }
    destruct (X [] (NoDup_nil _)) as (ds & E & D & T). rewrite E. cbn [cbind]. eexists. split; [reflexivity|].
    split; [now apply mul_NoDup|]. intros n. rewrite mul_top, T by auto. rewrite top_nil. lia.
  - discriminate.
  - simpl in NS. apply andb_true_iff in NS as [N1 N2].
    destruct (IHt1 N1 (cmul p oneOrMore) m N) as (m1 & E1 & D1 & T1). rewrite E1. cbn [cbind].
    destruct (IHt2 N2 (cmul p zeroOrMore) m1 D1) as (m2 & E2 & D2 & T2). exists m2. split; auto. split; auto.
    intros n. rewrite T2, T1. simpl. lia.
  - apply IHt; auto.
  - destruct (IHt NS (cmul p (quant_counter mn mx)) m N) as (m1 & E1 & D1 & T1). exists m1. split; auto. split; auto.
    intros q. rewrite T1. simpl. lia.
  - destruct (ONE n p m N) as (m' & E & D & T). exists m'. split; auto. split; auto. intros q. rewrite T. destruct (String.eqb q n); lia.
  - simpl in NS. apply andb_true_iff in NS as [N1 N2].
    destruct (IHt N1 (cmul p oneOrMore) m N) as (m1 & E1 & D1 & T1). exists m1. split; auto. split; auto.
    intros q. rewrite T1. simpl. lia.
  - apply IHt; auto.
Qed.

Lemma new_counters_top : forall t, no_stack t = true ->
  exists cc, new_counters (Some t) = COk cc /\ forall n, top cc n = hi t n.
Proof.
  intros t NS. destruct (count_children_top t NS oneOne [] (NoDup_nil _)) as (cc & E & _ & T).
  exists cc. split; auto. intros n. rewrite T. unfold top, ctr. simpl. lia.
Qed.

(** * Counting names in trees *)

Definition occ (ks : list string) (n : string) : nat := count_occ string_dec ks n.
Lemma occ_app : forall a b n, occ (a ++ b) n = occ a n + occ b n.
Proof. intros. apply count_occ_app. Qed.
Lemma occ_one : forall k n, occ [k] n = if String.eqb n k then 1 else 0.
Proof.
  intros k n. unfold occ. simpl. destruct (string_dec k n) as [->|N].
  - now rewrite String.eqb_refl.
  - destruct (String.eqb_spec n k); [congruence|auto].
Qed.

Lemma fits_occ :
  (forall gs t v ks, fits gs t v ks -> forall n, hi t n <= 1 -> occ ks n <= hi t n) /\
  (forall gs ts cs ks, fits_all gs ts cs ks -> forall n, fold_right (fun t a => hi t n + a) 0 ts <= 1 ->
     occ ks n <= fold_right (fun t a => hi t n + a) 0 ts) /\
  (forall gs t cs ks, fits_many gs t cs ks -> forall n, hi t n <= 1 -> occ ks n <= length cs * hi t n) /\
  (forall gs t sep cs ks, fits_turns gs t sep cs ks -> forall n, hi t n = 0 -> hi sep n = 0 -> occ ks n = 0).
Proof.
  apply fits_mutind; intros; cbn [hi] in *; try rewrite occ_one; auto.
  - destruct (String.eqb n i); lia.
  - specialize (H0 n). lia.
  - assert (L : hi t n <= fold_right (fun t a => Nat.max (hi t n) a) 0 ts).
    { apply nth_error_In in H. clear - H. induction ts; simpl; [contradiction|]. destruct H as [->|H]; [lia|]. apply IHts in H. lia. }
    specialize (H1 n). lia.
  - specialize (H0 n). destruct (Nat.eqb_spec mx 0) as [->|NZ].
    + assert (hi t n = 0) by lia. rewrite H4 in *. lia.
    + destruct H2 as [|H2]; [lia|]. destruct (hi t n) as [|[|h]]; [lia| |].
      * simpl in H0. lia.
      * destruct mx; [lia|]. simpl in H3. lia.
  - specialize (H0 n). lia.
  - rewrite occ_app. cbn [fold_right] in *. specialize (H0 n). specialize (H2 n). lia.
  - rewrite occ_app. cbn [length]. specialize (H0 n H3). specialize (H2 n H3). lia.
  - rewrite occ_app. specialize (H0 n). rewrite H2 by auto. lia.
Qed.

Lemma occ_In : forall ks n, In n ks <-> 0 < occ ks n.
Proof. intros. unfold occ. split; intro H; now apply (count_occ_In string_dec). Qed.

Lemma fits_hi : forall gs t v ks n, fits gs t v ks -> In n ks -> 0 < hi t n.
Proof.
  intros gs t v ks n F I. apply occ_In in I. destruct (Nat.eq_dec (hi t n) 0) as [Z|]; [|lia].
  pose proof (proj1 fits_occ _ _ _ _ F n). lia.
Qed.

Lemma hi_names : forall t n, 0 < hi t n -> In n (names_of t).
Proof.
  induction t using term_ind'; intros k; simpl; intros P;
    try (match goal with |- _ \/ False => left; destruct (String.eqb_spec k r) + destruct (String.eqb_spec k ""%string) + destruct (String.eqb_spec k i)
           + destruct (String.eqb_spec k s) + destruct (String.eqb_spec k n); [auto|lia] end; fail).
  - induction H as [|t ts IH F IHts]; simpl in *; [lia|]. apply in_or_app.
    destruct (Nat.eq_dec (hi t k) 0); [right; apply IHts; lia|left; apply IH; lia].
  - induction H as [|t ts IH F IHts]; simpl in *; [lia|]. apply in_or_app.
    destruct (Nat.eq_dec (hi t k) 0); [right; apply IHts; lia|left; apply IH; lia].
  - lia.
  - apply in_or_app. destruct (Nat.eq_dec (hi t1 k) 0); [right; apply IHt2; lia|left; apply IHt1; lia].
  - auto.
  - apply IHt. destruct (hi t k); [rewrite Nat.mul_0_r in P; lia|lia].
  - apply IHt. lia.
  - auto.
Qed.

(** What "one child" means for the counter. *)
Definition single (c : counter) : Prop := c = zeroOrOne \/ c = oneOne.

(** A name the counters call single is used at most once. *)
Theorem single_once : forall t cc n, new_counters (Some t) = COk cc -> single (ctr cc n) -> no_stack t = true ->
  forall gs v ks, fits gs t v ks -> occ ks n <= 1.
Proof.
  intros t cc n C S NS gs v ks F. destruct (new_counters_top t NS) as (cc' & C' & T).
  rewrite C in C'. inversion C'; subst cc'. specialize (T n). unfold top in T.
  assert (snd (ctr cc n) = 1) by (destruct S as [->| ->]; reflexivity).
  pose proof (proj1 fits_occ _ _ _ _ F n). lia.
Qed.
