(** Renaming of random cut identifiers; aborting contexts. *)
From Verif Require Import Base Scanner ScannerSpec Syntax Engine Resolve Compile Parse PegSpec CutSpec
  CompileProofs FuelProofs PegProofs PegComplete TopProofs.
Local Open Scope Z_scope.

(** * The counter only grows *)

Definition grows (run : parser -> scope -> scanner -> nat -> out) : Prop :=
  forall p sc inp k, (k <= snd (run p sc inp k))%nat.

Lemma replace_cut_grows : forall c b sc k sc' p m k', replace_cut c b sc k = (sc', p, m, k') -> (k <= k')%nat.
Proof. unfold replace_cut. intros. destruct (_ || _); inversion H; subst; lia. Qed.

Lemma seq_loop_grows : forall c run iscut rule, grows run -> forall ps ids sc inp k acc,
  (k <= snd (seq_loop c run iscut rule ids ps sc inp k acc))%nat.
Proof.
  intros c run iscut rule R. induction ps as [|p ps IH]; intros ids sc inp k acc; simpl; auto.
  pose proof (R p sc inp k) as G. destruct (run p sc inp k) as [[[v|e| |] s'] k']; simpl in *; auto.
  - destruct (iscut p).
    + destruct (replace_cut c true sc k') as [[[sc1 q] m] k2] eqn:RC. apply replace_cut_grows in RC.
      etransitivity; [|apply IH]. lia.
    + etransitivity; [|apply IH]. lia.
  - destruct (is_fatal e); simpl; auto.
Qed.

Lemma quant_loop_grows : forall run rule mn mx p sc pc mc, grows run -> forall fuel inp k acc,
  (k <= snd (quant_loop run fuel rule mn mx p sc pc mc inp k acc))%nat.
Proof.
  intros run rule mn mx p sc pc mc R. induction fuel as [|f IH]; intros inp k acc; simpl.
  - destruct (_ || _); simpl; auto. destruct (Nat.leb mn (length acc)); simpl; auto.
  - destruct (_ || _).
    + pose proof (R p sc inp k) as G. destruct (run p sc inp k) as [[[v|e| |] s'] k']; simpl in *; auto.
      * etransitivity; [|apply IH]. lia.
      * destruct (not_my_fatal e mc); simpl; auto. destruct (Nat.leb mn (length acc)); simpl; auto.
    + destruct (Nat.leb mn (length acc)); simpl; auto.
Qed.

Lemma oneof_loop_grows : forall run rule sc pc mc, grows run -> forall ps i inp fur k,
  (k <= snd (oneof_loop run rule i ps sc pc mc inp fur k))%nat.
Proof.
  intros run rule sc pc mc R. induction ps as [|p ps IH]; intros i inp fur k; simpl; auto.
  pose proof (R p sc inp k) as G. destruct (run p sc inp k) as [[[v|e| |] s'] k']; simpl in *; auto.
  destruct (not_my_fatal e mc); simpl; auto. etransitivity; [|apply IH]. lia.
Qed.

Lemma with_escape_grows : forall c sc inp k cont, (k <= snd (cont tt))%nat -> (k <= snd (with_escape c sc inp k cont))%nat.
Proof.
  intros. unfold with_escape. destruct (cf_esc c) as [e|]; auto.
  destruct (eat_regexp (cf_eng c) (esc_open e) inp 0); simpl; auto.
  destruct (esc_fn e sc rest) as [i2 [te|[]]]; simpl; auto;
    match goal with |- context [eat_regexp ?a ?b ?d ?z] => destruct (eat_regexp a b d z); simpl; auto end.
Qed.

Lemma parse_grows : forall c f e, grows (parse c f e).
Proof.
  intros c. induction f as [|f IH]; intros e p sc inp k; simpl; auto.
  destruct p; simpl; auto; try (apply with_escape_grows; simpl).
  - destruct (resolve_link e t) as [[q e']|]; simpl; auto. apply IH.
  - destruct (eat_token (cf_eng c) re inp); simpl; auto.
  - destruct (eat_token (cf_eng c) re inp); simpl; auto.
  - apply seq_loop_grows. apply IH.
  - pose proof (IH e p sc inp k) as G. destruct (parse c f e p sc inp k) as [[[v|x| |] s'] k']; simpl in *; auto.
    destruct (delim_node rule a cs ce v); simpl; auto.
  - pose proof (IH e p sc inp k) as G. destruct (parse c f e p sc inp k) as [[[v|x| |] s'] k']; simpl in *; auto.
  - destruct (replace_cut c false sc k) as [[[sc' pc] mc] k'] eqn:RC. apply replace_cut_grows in RC.
    etransitivity; [exact RC|]. apply quant_loop_grows. apply IH.
  - destruct (replace_cut c false sc k) as [[[sc' pc] mc] k'] eqn:RC. apply replace_cut_grows in RC.
    etransitivity; [exact RC|]. apply oneof_loop_grows. apply IH.
  - assert (G : forall t (check : tree -> bool), (k <= snd
      match term_parser (cf_eng c) t None ident with
      | COk q => match parse c f [] q sc inp k with
                 | (ROk v, inp', k') => if check v then (ROk v, inp', k') else (RErr (EParse ident), inp', k')
                 | r => r end
      | _ => (RPanic, inp, k) end)%nat).
    { intros t check. destruct (term_parser (cf_eng c) t None ident); simpl; auto.
      pose proof (IH [] a sc inp k) as F. destruct (parse c f [] a sc inp k) as [[[v|x| |] s'] k']; simpl in *; auto.
      destruct (check v); simpl; auto. }
    destruct (lookup ident (svals sc)).
    + destruct (term_from_ref_val t); simpl; [|lia]. apply (G t0).
    + destruct default; simpl; [apply (G (TS b) (fun _ => true))|auto].
  - destruct (lookup s (cf_ext c)) as [fn|]; simpl; auto. destruct (fn sc inp) as [i2 [t|x]]; simpl; auto.
  - apply IH.
  - apply IH.
Qed.

(** * Renaming *)

Section Rename.
  Variable c : config.
  Variable rnd2 : nat -> Z.
  Variable K : nat.
  Notation rnd1 := (cf_rnd c).
  Notation c2 := (with_rnd c rnd2).
  Hypothesis ok1 : drawn_ok rnd1 K.
  Hypothesis ok2 : drawn_ok rnd2 K.
  Hypothesis un1 : unreserved rnd1 K.
  Hypothesis un2 : unreserved rnd2 K.
  Hypothesis exts : ext_ok c (fun fn => blind fn /\ foreign rnd1 K fn /\ foreign rnd2 K fn).

  Definition rcut (a b : Z) : Prop :=
    (a = invalid_cp /\ b = invalid_cp) \/ exists j, (j < K)%nat /\ a = rnd1 j /\ b = rnd2 j.
  Definition rerr (e1 e2 : perr) : Prop :=
    (exists r a b j, (j < K)%nat /\ e1 = EFatal r a /\ e2 = EFatal r b /\ a = rnd1 j /\ b = rnd2 j) \/
    (e1 = e2 /\ forall r a, e1 = EFatal r a -> forall i, (i < K)%nat -> rnd1 i <> a /\ rnd2 i <> a).
  Definition rres (r1 r2 : res) : Prop :=
    match r1, r2 with RErr e1, RErr e2 => rerr e1 e2 | _, _ => r1 = r2 end.
  Definition rout (o1 o2 : out) : Prop :=
    match o1, o2 with (r1, s1, k1), (r2, s2, k2) => rres r1 r2 /\ s1 = s2 /\ k1 = k2 end.
  Definition rscope (s1 s2 : scope) : Prop := svals s1 = svals s2 /\ rcut (scut s1) (scut s2).

  Definition rrun (run1 run2 : parser -> scope -> scanner -> nat -> out) : Prop :=
    forall p sc1 sc2 inp k, rscope sc1 sc2 -> (snd (run1 p sc1 inp k) <= K)%nat ->
      rout (run1 p sc1 inp k) (run2 p sc2 inp k).

  Lemma rcut_valid : forall a b, rcut a b -> cp_valid a = cp_valid b.
  Proof.
    intros a b [[-> ->]|(j & L & -> & ->)]; auto. unfold cp_valid.
    destruct ok1 as [N1 _], ok2 as [N2 _]. specialize (N1 _ L). specialize (N2 _ L).
    destruct (Z.leb_spec 0 (rnd1 j)), (Z.leb_spec 0 (rnd2 j)); auto; lia.
  Qed.

  Lemma rerr_same : forall e1 e2 r a, e1 = EFatal r a -> e1 = e2 ->
    (forall i, (i < K)%nat -> rnd1 i <> a /\ rnd2 i <> a) -> rerr e1 e2.
  Proof. intros. right. split; auto. intros r' a' Q. rewrite H in Q. inversion Q; subst. auto. Qed.

  Lemma rerr_plain : forall e, (forall r a, e <> EFatal r a) -> rerr e e.
  Proof. intros. right. split; auto. intros r a Q. exfalso. eapply H; eauto. Qed.

  Lemma new_parse_error_rerr : forall rule a b, rcut a b -> rerr (new_parse_error rule a) (new_parse_error rule b).
  Proof.
    intros rule a b R. unfold new_parse_error. rewrite (rcut_valid _ _ R).
    destruct (cp_valid b) eqn:V; [|apply rerr_plain; discriminate].
    destruct R as [[-> ->]|(j & L & -> & ->)]; [discriminate|]. left. eauto 10.
  Qed.

  Lemma rerr_is_fatal : forall e1 e2, rerr e1 e2 -> is_fatal e1 = is_fatal e2.
  Proof. intros e1 e2 [(r & a & b & j & _ & -> & -> & _)|[-> _]]; auto. Qed.

  Lemma rerr_not_mine : forall e1 e2 a b, rerr e1 e2 -> rcut a b -> not_my_fatal e1 a = not_my_fatal e2 b.
  Proof.
    intros e1 e2 a b [(r & x & y & j & L & -> & -> & -> & ->)|[-> F]] R; simpl.
    - destruct R as [[-> ->]|(i & L' & -> & ->)].
      + unfold invalid_cp. destruct ok1 as [N1 _], ok2 as [N2 _]. specialize (N1 _ L). specialize (N2 _ L).
        destruct (Z.eqb_spec (rnd1 j) (-1)), (Z.eqb_spec (rnd2 j) (-1)); auto; lia.
      + destruct ok1 as [_ D1], ok2 as [_ D2].
        destruct (Z.eqb_spec (rnd1 j) (rnd1 i)) as [Q|Q], (Z.eqb_spec (rnd2 j) (rnd2 i)) as [Q2|Q2]; auto.
        all: exfalso.
        all: try (apply D1 in Q; auto; subst; congruence).
        all: apply D2 in Q2; auto; subst; congruence.
    - destruct e2; simpl; auto. destruct R as [[-> ->]|(i & L' & -> & ->)]; auto.
      destruct (F _ _ eq_refl _ L') as [F1 F2].
      destruct (Z.eqb_spec cp (rnd1 i)), (Z.eqb_spec cp (rnd2 i)); auto; congruence.
  Qed.

  Lemma replace_cut_r : forall b sc1 sc2 k sc1' p1 m1 k', rscope sc1 sc2 ->
    replace_cut c b sc1 k = (sc1', p1, m1, k') -> (k' <= K)%nat ->
    exists sc2' p2 m2, replace_cut c2 b sc2 k = (sc2', p2, m2, k') /\ rscope sc1' sc2' /\ rcut p1 p2 /\ rcut m1 m2.
  Proof.
    intros b sc1 sc2 k sc1' p1 m1 k' [V R] H L. unfold replace_cut in *. rewrite <- (rcut_valid _ _ R).
    destruct (cp_valid (scut sc1) || b).
    - inversion H; subst. eexists _, _, _. split; [reflexivity|]. simpl.
      assert (rcut (rnd1 k) (rnd2 k)) by (right; exists k; split; [lia|auto]).
      split; [split; auto|auto].
    - inversion H; subst. eexists _, _, _. split; [reflexivity|]. split; [split; auto|].
      split; left; auto.
  Qed.

  Lemma with_val_r : forall sc1 sc2 n v, rscope sc1 sc2 -> rscope (with_val sc1 n v) (with_val sc2 n v).
  Proof. intros sc1 sc2 n v [V R]. unfold with_val. destruct (String.eqb n ""); split; simpl; auto. congruence. Qed.

  Lemma seq_loop_r : forall run1 run2 iscut rule, rrun run1 run2 -> grows run1 -> forall ps ids sc1 sc2 inp k acc,
    rscope sc1 sc2 -> (snd (seq_loop c run1 iscut rule ids ps sc1 inp k acc) <= K)%nat ->
    rout (seq_loop c run1 iscut rule ids ps sc1 inp k acc) (seq_loop c2 run2 iscut rule ids ps sc2 inp k acc).
  Proof.
    intros run1 run2 iscut rule R G. induction ps as [|p ps IH]; intros ids sc1 sc2 inp k acc S L; [simpl; auto|].
    - simpl in L |- *. pose proof (R p sc1 sc2 inp k S) as RR.
      destruct (run1 p sc1 inp k) as [[[v|e| |] s'] k'] eqn:Q1.
      + destruct (iscut p) eqn:IC.
        * destruct (replace_cut c true sc1 k') as [[[sa q] m] kk] eqn:RC. pose proof (replace_cut_grows _ _ _ _ _ _ _ _ RC) as GG.
          assert (LK : (kk <= K)%nat) by (etransitivity; [|exact L]; apply seq_loop_grows; auto).
          assert (L0 : (k' <= K)%nat) by lia. specialize (RR L0).
          destruct (run2 p sc2 inp k) as [[[v2|e2| |] s2] k2] eqn:Q2; destruct RR as (RR & <- & <-); simpl in RR; try discriminate.
          inversion RR; subst v2.
          destruct (replace_cut_r _ _ _ _ _ _ _ _ S RC LK) as (sb & q2 & m2 & -> & S' & _ & _).
          apply IH; auto using with_val_r.
        * assert (LK : (k' <= K)%nat) by (etransitivity; [|exact L]; apply seq_loop_grows; auto). specialize (RR LK).
          destruct (run2 p sc2 inp k) as [[[v2|e2| |] s2] k2] eqn:Q2; destruct RR as (RR & <- & <-); simpl in RR; try discriminate.
          inversion RR; subst v2. apply IH; auto using with_val_r.
      + assert (LK : (k' <= K)%nat) by (destruct (is_fatal e); simpl in L; auto). specialize (RR LK).
        destruct (run2 p sc2 inp k) as [[[v2|e2| |] s2] k2] eqn:Q2; destruct RR as (RR & <- & <-); simpl in RR; try discriminate.
        rewrite <- (rerr_is_fatal _ _ RR). destruct (is_fatal e); simpl; auto. split; auto.
        apply new_parse_error_rerr. apply S.
      + specialize (RR L). destruct (run2 p sc2 inp k) as [[[v2|e2| |] s2] k2] eqn:Q2; destruct RR as (RR & <- & <-); simpl in RR; try discriminate.
        split; auto; reflexivity.
      + specialize (RR L). destruct (run2 p sc2 inp k) as [[[v2|e2| |] s2] k2] eqn:Q2; destruct RR as (RR & <- & <-); simpl in RR; try discriminate.
        split; auto; reflexivity.
  Qed.

  Lemma quant_loop_r : forall run1 run2 rule mn mx p sc1 sc2 pc1 pc2 mc1 mc2, rrun run1 run2 -> grows run1 ->
    rscope sc1 sc2 -> rcut pc1 pc2 -> rcut mc1 mc2 -> forall fuel inp k acc,
    (snd (quant_loop run1 fuel rule mn mx p sc1 pc1 mc1 inp k acc) <= K)%nat ->
    rout (quant_loop run1 fuel rule mn mx p sc1 pc1 mc1 inp k acc) (quant_loop run2 fuel rule mn mx p sc2 pc2 mc2 inp k acc).
  Proof.
    intros run1 run2 rule mn mx p sc1 sc2 pc1 pc2 mc1 mc2 R G S RP RM.
    assert (FIN : forall (acc : list tree) (inp : scanner) (k' : nat), rout
       (if Nat.leb mn (length acc) then (ROk (Node (rule_or_alt rule quantTag) XNone acc), inp, k')
        else (RErr (new_parse_error rule pc1), inp, k'))
       (if Nat.leb mn (length acc) then (ROk (Node (rule_or_alt rule quantTag) XNone acc), inp, k')
        else (RErr (new_parse_error rule pc2), inp, k'))).
    { intros. destruct (Nat.leb mn (length acc)); (split; [|auto]); [reflexivity|]. apply new_parse_error_rerr; auto. }
    induction fuel as [|f IH]; intros inp k acc L; simpl in *.
    - destruct (_ || _); [split; auto; reflexivity|apply FIN].
    - destruct (_ || _); [|apply FIN]. pose proof (R p sc1 sc2 inp k S) as RR.
      destruct (run1 p sc1 inp k) as [[[v|e| |] s'] k'] eqn:Q1.
      + assert (LK : (k' <= K)%nat) by (etransitivity; [|exact L]; apply quant_loop_grows; auto). specialize (RR LK).
        destruct (run2 p sc2 inp k) as [[[v2|e2| |] s2] k2] eqn:Q2; destruct RR as (RR & <- & <-); simpl in RR; try discriminate.
        inversion RR; subst v2. apply IH; auto.
      + assert (LK : (k' <= K)%nat).
        { destruct (not_my_fatal e mc1); simpl in L; auto. destruct (Nat.leb mn (length acc)); simpl in L; auto. }
        specialize (RR LK).
        destruct (run2 p sc2 inp k) as [[[v2|e2| |] s2] k2] eqn:Q2; destruct RR as (RR & <- & <-); simpl in RR; try discriminate.
        rewrite <- (rerr_not_mine _ _ _ _ RR RM). destruct (not_my_fatal e mc1); [split; auto|apply FIN].
      + specialize (RR L). destruct (run2 p sc2 inp k) as [[[v2|e2| |] s2] k2] eqn:Q2; destruct RR as (RR & <- & <-); simpl in RR; try discriminate.
        split; auto; reflexivity.
      + specialize (RR L). destruct (run2 p sc2 inp k) as [[[v2|e2| |] s2] k2] eqn:Q2; destruct RR as (RR & <- & <-); simpl in RR; try discriminate.
        split; auto; reflexivity.
  Qed.

  Lemma oneof_loop_r : forall run1 run2 rule sc1 sc2 pc1 pc2 mc1 mc2, rrun run1 run2 -> grows run1 ->
    rscope sc1 sc2 -> rcut pc1 pc2 -> rcut mc1 mc2 -> forall ps i inp fur k,
    (snd (oneof_loop run1 rule i ps sc1 pc1 mc1 inp fur k) <= K)%nat ->
    rout (oneof_loop run1 rule i ps sc1 pc1 mc1 inp fur k) (oneof_loop run2 rule i ps sc2 pc2 mc2 inp fur k).
  Proof.
    intros run1 run2 rule sc1 sc2 pc1 pc2 mc1 mc2 R G S RP RM.
    induction ps as [|p ps IH]; intros i inp fur k L; simpl in *.
    - split; auto. apply new_parse_error_rerr; auto.
    - pose proof (R p sc1 sc2 inp k S) as RR.
      destruct (run1 p sc1 inp k) as [[[v|e| |] s'] k'] eqn:Q1.
      + specialize (RR L). destruct (run2 p sc2 inp k) as [[[v2|e2| |] s2] k2] eqn:Q2; destruct RR as (RR & <- & <-); simpl in RR; try discriminate.
        inversion RR; subst v2. split; auto; reflexivity.
      + assert (LK : (k' <= K)%nat).
        { destruct (not_my_fatal e mc1); simpl in L; auto. etransitivity; [|exact L]. apply oneof_loop_grows; auto. }
        specialize (RR LK).
        destruct (run2 p sc2 inp k) as [[[v2|e2| |] s2] k2] eqn:Q2; destruct RR as (RR & <- & <-); simpl in RR; try discriminate.
        rewrite <- (rerr_not_mine _ _ _ _ RR RM). destruct (not_my_fatal e mc1); [split; auto|apply IH; auto].
      + specialize (RR L). destruct (run2 p sc2 inp k) as [[[v2|e2| |] s2] k2] eqn:Q2; destruct RR as (RR & <- & <-); simpl in RR; try discriminate.
        split; auto; reflexivity.
      + specialize (RR L). destruct (run2 p sc2 inp k) as [[[v2|e2| |] s2] k2] eqn:Q2; destruct RR as (RR & <- & <-); simpl in RR; try discriminate.
        split; auto; reflexivity.
  Qed.

  Lemma ext_call : forall fn sc1 sc2 s, blind fn -> rscope sc1 sc2 -> fn sc1 s = fn sc2 s.
  Proof. intros fn [v1 a] [v2 b] s B [V R]. simpl in V. subst. apply B. Qed.

  Lemma ext_rerr : forall fn sc s s' e, foreign rnd1 K fn -> foreign rnd2 K fn -> fn sc s = (s', XErr e) -> rerr e e.
  Proof.
    intros fn sc s s' e F1 F2 Q. right. split; auto. intros r a -> i L. split.
    - apply (F1 sc s r a); auto. rewrite Q. auto.
    - apply (F2 sc s r a); auto. rewrite Q. auto.
  Qed.

  Lemma with_escape_r : forall sc1 sc2 inp k (k1 k2 : unit -> out), rscope sc1 sc2 ->
    ((snd (k1 tt) <= K)%nat -> rout (k1 tt) (k2 tt)) ->
    (snd (with_escape c sc1 inp k k1) <= K)%nat ->
    rout (with_escape c sc1 inp k k1) (with_escape c2 sc2 inp k k2).
  Proof.
    intros sc1 sc2 inp k k1 k2 S C L. unfold with_escape in *. simpl. destruct (cf_esc c) as [e|] eqn:Q; auto.
    destruct (proj2 exts e Q) as (B & F1 & F2).
    destruct (eat_regexp (cf_eng c) (esc_open e) inp 0) as [| |m cs n inp1]; auto.
    - split; auto; reflexivity.
    - rewrite <- (ext_call _ _ _ inp1 B S).
      assert (CL : forall te inp2, rout
        match eat_regexp (cf_eng c) (esc_close e) inp2 0 with
        | EatPanic => (RPanic, inp2, k) | EatNo => (RErr EOther, inp2, k) | EatOk _ _ _ inp3 => (ROk te, inp3, k) end
        match eat_regexp (cf_eng c) (esc_close e) inp2 0 with
        | EatPanic => (RPanic, inp2, k) | EatNo => (RErr EOther, inp2, k) | EatOk _ _ _ inp3 => (ROk te, inp3, k) end).
      { intros te inp2. destruct (eat_regexp (cf_eng c) (esc_close e) inp2 0); (split; [|auto]); try reflexivity.
        apply rerr_plain. discriminate. }
      destruct (esc_fn e sc1 inp1) as [inp2 [te|err]] eqn:QF; [apply CL|].
      pose proof (ext_rerr _ _ _ _ _ F1 F2 QF) as RE.
      destruct err; try (split; [exact RE|auto]; fail). apply CL.
  Qed.

  Theorem parse_rename : forall f e, rrun (parse c f e) (parse c2 f e).
  Proof.
    induction f as [|f IH]; intros e p sc1 sc2 inp k S L; [split; auto; reflexivity|].
    destruct p; cbn [parse] in *; cbv zeta in *.
    - split; auto; reflexivity.
    - destruct (resolve_link e t) as [[q e']|]; [apply IH; auto|split; auto; reflexivity].
    - apply with_escape_r; auto. intros _. cbn [cf_eng with_rnd].
      destruct (eat_token (cf_eng c) re inp); (split; [|auto]); try reflexivity.
      apply new_parse_error_rerr. apply S.
    - apply with_escape_r; auto. intros _. cbn [cf_eng with_rnd].
      destruct (eat_token (cf_eng c) re inp); (split; [|auto]); try reflexivity.
      apply new_parse_error_rerr. apply S.
    - apply with_escape_r; auto. intros L1. apply seq_loop_r; auto. apply parse_grows.
    - apply with_escape_r; auto. intros L1. pose proof (IH e p sc1 sc2 inp k S) as RR.
      destruct (parse c f e p sc1 inp k) as [[[v|x| |] s'] k'] eqn:Q1;
        assert (LK : (k' <= K)%nat) by (revert L1; simpl; try (destruct (delim_node rule a cs ce v)); auto);
        specialize (RR LK);
        destruct (parse c2 f e p sc2 inp k) as [[[v2|e2| |] s2] k2] eqn:Q2; destruct RR as (RR & <- & <-); simpl in RR; try discriminate;
        try (split; auto; fail).
      inversion RR; subst v2. destruct (delim_node rule a cs ce v); split; auto; reflexivity.
    - apply with_escape_r; auto. intros L1. pose proof (IH e p sc1 sc2 inp k S) as RR.
      destruct (parse c f e p sc1 inp k) as [[[v|x| |] s'] k'] eqn:Q1; specialize (RR L1);
        destruct (parse c2 f e p sc2 inp k) as [[[v2|e2| |] s2] k2] eqn:Q2; destruct RR as (RR & <- & <-); simpl in RR; try discriminate;
        try (split; auto; fail).
      inversion RR; subst v2. split; auto; reflexivity.
    - apply with_escape_r; auto. intros L1.
      destruct (replace_cut c false sc1 k) as [[[sa pa] ma] ka] eqn:RC.
      assert (LK : (ka <= K)%nat) by (etransitivity; [|exact L1]; apply quant_loop_grows; apply parse_grows).
      destruct (replace_cut_r _ _ _ _ _ _ _ _ S RC LK) as (sb & pb & mb & -> & S' & RP & RM).
      apply quant_loop_r; auto. apply parse_grows.
    - apply with_escape_r; auto. intros L1.
      destruct (replace_cut c false sc1 k) as [[[sa pa] ma] ka] eqn:RC.
      assert (LK : (ka <= K)%nat) by (etransitivity; [|exact L1]; apply oneof_loop_grows; apply parse_grows).
      destruct (replace_cut_r _ _ _ _ _ _ _ _ S RC LK) as (sb & pb & mb & -> & S' & RP & RM).
      apply oneof_loop_r; auto. apply parse_grows.
    - apply with_escape_r; auto. intros L1. cbn [cf_eng with_rnd].
      assert (G : forall t (check : tree -> bool),
        (snd match term_parser (cf_eng c) t None ident with
        | COk q => match parse c f [] q sc1 inp k with
                   | (ROk v, inp', k') => if check v then (ROk v, inp', k') else (RErr (EParse ident), inp', k')
                   | r => r end
        | _ => (RPanic, inp, k) end <= K)%nat -> rout
        match term_parser (cf_eng c) t None ident with
        | COk q => match parse c f [] q sc1 inp k with
                   | (ROk v, inp', k') => if check v then (ROk v, inp', k') else (RErr (EParse ident), inp', k')
                   | r => r end
        | _ => (RPanic, inp, k) end
        match term_parser (cf_eng c) t None ident with
        | COk q => match parse c2 f [] q sc2 inp k with
                   | (ROk v, inp', k') => if check v then (ROk v, inp', k') else (RErr (EParse ident), inp', k')
                   | r => r end
        | _ => (RPanic, inp, k) end).
      { intros t check LL. destruct (term_parser (cf_eng c) t None ident) as [q| |]; try (split; auto; reflexivity).
        pose proof (IH [] q sc1 sc2 inp k S) as RR.
        destruct (parse c f [] q sc1 inp k) as [[[v|x| |] s'] k'] eqn:Q1;
          assert (LK : (k' <= K)%nat) by (revert LL; simpl; try (destruct (check v)); auto);
          specialize (RR LK);
          destruct (parse c2 f [] q sc2 inp k) as [[[v2|e2| |] s2] k2] eqn:Q2; destruct RR as (RR & <- & <-); simpl in RR; try discriminate;
          try (split; auto; fail).
        inversion RR; subst v2. destruct (check v); (split; [|auto]); [reflexivity|apply rerr_plain; discriminate]. }
      destruct S as [V R]. rewrite <- V. destruct (lookup ident (svals sc1)) as [ex|].
      + destruct (term_from_ref_val ex) as [t|]; [|split; auto; reflexivity]. apply (G t (fun v => nodes_equal v ex)). auto.
      + destruct default; [apply (G (TS b) (fun _ => true)); auto|]. split; auto. apply rerr_plain. discriminate.
    - apply with_escape_r; auto. intros L1. cbn [cf_ext with_rnd].
      destruct (lookup s (cf_ext c)) as [fn|] eqn:LF.
      + destruct (proj1 exts _ _ LF) as (B & F1 & F2). rewrite <- (ext_call _ _ _ inp B S).
        destruct (fn sc1 inp) as [s' [t|x]] eqn:QF; (split; [|auto]); [reflexivity|]. eapply ext_rerr; eauto.
      + split; auto. simpl. unfold new_parse_error. simpl. right. split; auto. intros r a Q i LI. inversion Q; subst.
        split; [apply un1|apply un2]; auto.
    - apply IH; auto.
    - apply IH; auto.
  Qed.

  Lemma rres_same : forall r1 r2, rres r1 r2 -> same_result r1 r2.
  Proof.
    intros [v|e| |] [v2|e2| |] R; simpl in *; try discriminate; auto.
    destruct R as [(r & a & b & j & _ & -> & -> & _)|[-> _]]; auto.
  Qed.

  Lemma empty_scope_r : rscope empty_scope empty_scope.
  Proof. split; auto. left. auto. Qed.

  Theorem parse_rule_rename : forall f ps r s res1 s1, parse_rule c f ps r s = (res1, s1) ->
    (draws c f ps r s <= K)%nat ->
    exists res2, parse_rule c2 f ps r s = (res2, s1) /\ same_result res1 res2 /\ draws c2 f ps r s = draws c f ps r s.
  Proof.
    intros f ps r s res1 s1 H D. unfold parse_rule, draws in *.
    destruct (lookup r (p_rules ps)) as [p|]; [|inversion H; subst; eexists; split; eauto; split; auto; reflexivity].
    pose proof (parse_rename f [p_rules ps] p empty_scope empty_scope s 0%nat empty_scope_r D) as RR.
    destruct (parse c f [p_rules ps] p empty_scope s 0) as [[r1 a] k1].
    destruct (parse c2 f [p_rules ps] p empty_scope s 0) as [[r2 b] k2]. destruct RR as (RR & <- & <-).
    pose proof (rres_same _ _ RR) as SR.
    destruct r1 as [v|e| |], r2 as [v2|e2| |]; simpl in RR; try discriminate; inversion RR; subst;
      try (inversion H; subst; eexists; split; [reflexivity|]; split; auto; fail).
    destruct (sstring a) as [[|? ?]|]; inversion H; subst; eexists; (split; [reflexivity|]); split; auto; reflexivity.
  Qed.
End Rename.

(** * Aborting contexts *)

Lemma commits_cut : forall gs t, commits gs (TCut t) <-> True.
Proof. split; auto. intros. constructor. Qed.

Lemma commits_dec : forall E gs vs r t s o, peg E gs vs r t s o -> commits gs t \/ ~ commits gs t.
Proof.
  intros E gs vs r t s o P. induction P; try (right; intros C; inversion C; fail).
  - destruct IHP; [left; constructor; auto|right; rewrite commits_named; auto].
  - left. constructor.
  - destruct IHP; [left; constructor; auto|right; rewrite commits_scoped; auto].
  - destruct IHP as [C|C]; [left; econstructor; eauto|right; rewrite commits_rule].
    intros (gs2 & t2 & RB & C2). destruct (rule_body_fun _ _ _ _ H _ _ RB) as [-> ->]. auto.
Qed.

Lemma elements_seq : forall E gs vs ts s vs' s', elements E gs vs ts s vs' s' ->
  forall t rest, peg E gs vs' "" t s' Abort -> forall cut r acc, peg_seq E gs vs cut r (ts ++ t :: rest) acc s Abort.
Proof.
  induction 1 as [|gs vs t0 ts s v s1 vs' s' P EL IH]; intros t rest A cut r acc; simpl.
  - apply PS_abort; auto.
  - destruct (commits_dec _ _ _ _ _ _ _ P) as [C|C].
    + eapply PS_next; eauto.
    + eapply PS_next; eauto.
Qed.

Lemma failed_alts : forall E gs vs s ts, Forall (fun u => peg E gs vs "" u s Fail) ts ->
  forall t rest, peg E gs vs "" t s Abort -> forall r i, peg_alt E gs vs r i (ts ++ t :: rest) s Abort.
Proof.
  induction 1 as [|u ts P F IH]; intros t rest A r i; simpl.
  - apply PA_abort; auto.
  - apply PA_next; auto.
Qed.

Lemma times_rep : forall E gs vs t n s s', times E gs vs t n s s' -> peg E gs vs "" t s' Abort ->
  forall r mn mx acc, room mx (length acc + n) -> peg_rep E gs vs r mn mx t acc s Abort.
Proof.
  induction 1 as [|gs vs t n s v s1 s' P T IH]; intros A r mn mx acc RM.
  - apply PR_abort; auto. rewrite Nat.add_0_r in RM. auto.
  - eapply PR_more; eauto.
    + unfold room in *. lia.
    + apply IH; auto. rewrite app_length. simpl. unfold room in *. lia.
Qed.

Theorem abort_propagates : forall E gs vs r t s gs' vs' r' t' s', reaches E gs vs r t s gs' vs' r' t' s' ->
  peg E gs' vs' r' t' s' Abort -> peg E gs vs r t s Abort.
Proof.
  induction 1; intros A; auto.
  - apply P_named; auto.
  - apply P_cut; auto.
  - apply P_scoped; auto.
  - eapply P_rule; eauto.
  - apply P_seq. eapply elements_seq; eauto.
  - apply P_oneof. apply failed_alts; auto.
  - apply P_quant. eapply times_rep; eauto.
  - apply P_look_no; auto.
  - apply P_delim_no; auto.
Qed.

Lemma elements_snoc : forall E gs vs ts s vs' s', elements E gs vs ts s vs' s' ->
  forall t rest, peg E gs vs' "" t s' Fail -> forall r acc, peg_seq E gs vs true r (ts ++ t :: rest) acc s Abort.
Proof.
  induction 1 as [|gs vs t0 ts s v s1 vs' s' P EL IH]; intros t rest A r acc; simpl.
  - apply (PS_fail E gs vs true); auto.
  - destruct (commits_dec _ _ _ _ _ _ _ P) as [C|C]; eapply PS_next; eauto.
Qed.

Lemma elements_prefix : forall E gs vs ts s vs' s', elements E gs vs ts s vs' s' -> forall us o,
  (forall r acc cut, peg_seq E gs vs' cut r us acc s' o) ->
  forall r acc cut, peg_seq E gs vs cut r (ts ++ us) acc s o.
Proof.
  induction 1 as [|gs vs t0 ts s v s1 vs' s' P EL IH]; intros us o H r acc cut; simpl; auto.
  destruct (commits_dec _ _ _ _ _ _ _ P) as [C|C]; eapply PS_next; eauto.
Qed.

(** A sequence whose cut point has matched and a later element of which fails, aborts. *)
Theorem committed_aborts : forall E gs vs r pre c mid x post s vs1 s1 v s2 vs2 s3,
  elements E gs vs pre s vs1 s1 -> peg E gs vs1 "" c s1 (Succ v s2) -> commits gs c ->
  elements E gs (bind vs1 (label c) v) mid s2 vs2 s3 -> peg E gs vs2 "" x s3 Fail ->
  peg E gs vs r (TSeq (pre ++ c :: mid ++ x :: post)) s Abort.
Proof.
  intros. apply P_seq. eapply elements_prefix; eauto. intros r0 acc cut.
  eapply PS_next; eauto. eapply elements_snoc; eauto.
Qed.
