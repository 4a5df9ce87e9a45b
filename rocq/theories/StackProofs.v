(** Stacks become chains of rules; compilation and parsing do not depend on map order. *)
From Verif Require Import Base Scanner Syntax Engine Resolve Compile Parse PegSpec StackSpec CompileProofs TopProofs PegProofs FuelProofs.
From Coq Require Import DecimalString DecimalNat Decimal.

(** * Names of layers *)

Fixpoint no_at (s : string) : Prop :=
  match s with EmptyString => True | String a s' => a <> "@"%char /\ no_at s' end.

Lemma no_at_uint : forall u, no_at (NilEmpty.string_of_uint u).
Proof. induction u; simpl; auto; split; auto; discriminate. Qed.

Lemma dec_inj : forall i j, NilEmpty.string_of_uint (Nat.to_uint i) = NilEmpty.string_of_uint (Nat.to_uint j) -> i = j.
Proof.
  intros i j H. apply DecimalNat.Unsigned.to_uint_inj.
  pose proof (f_equal NilEmpty.uint_of_string H) as G. rewrite !NilEmpty.usu in G. inversion G. auto.
Qed.

Lemma at_split : forall r r' a b, no_at a -> no_at b -> (r ++ "@" ++ a)%string = (r' ++ "@" ++ b)%string -> r = r' /\ a = b.
Proof.
  assert (NA : forall r a b, no_at a -> a <> (r ++ "@" ++ b)%string).
  { induction r as [|c r IH]; intros a b N E; subst; simpl in N; [destruct N; congruence|]. destruct N as [_ N]. exact (IH _ b N eq_refl). }
  induction r as [|c r IH]; intros [|c' r'] a b Na Nb E; simpl in E; inversion E; subst; auto.
  - exfalso. eapply (NA r' _ b Na). reflexivity.
  - exfalso. eapply (NA r _ a Nb). reflexivity.
  - destruct (IH r' a b Na Nb ltac:(assumption)) as [-> ->]. auto.
Qed.

Lemma level_inj : forall r r' i j, i <> 0 -> j <> 0 -> level r i = level r' j -> r = r' /\ i = j.
Proof.
  intros r r' [|i] [|j] Hi Hj E; try congruence. unfold level in E.
  apply at_split in E as [-> E]; auto using no_at_uint. split; auto. apply dec_inj; auto.
Qed.

Lemma layer_name_next : forall r n i, i < n -> layer_name r n (i + 1) = next_level r n i.
Proof.
  intros r n i L. unfold layer_name, next_level. replace (i + 1) with (S i) by lia.
  destruct (Nat.eqb_spec (S i) n) as [->|N].
  - rewrite Nat.mod_same by lia. reflexivity.
  - rewrite Nat.mod_small by lia. reflexivity.
Qed.

(** * Layers *)

Lemma term_resolve_put : forall x t u, term_resolve StackDelim x t = COk u <-> put x t u.
Proof.
  assert (L : forall x ts, Forall (fun t => forall u, term_resolve StackDelim x t = COk u <-> put x t u) ts ->
    forall us, ctraverse (term_resolve StackDelim x) ts = COk us <-> Forall2 (put x) ts us).
  { intros x ts F us. rewrite ctraverse_ok. revert us. induction F as [|t ts H F IH]; intros us; split; intros G; inversion G; subst; constructor;
      try (apply H; auto); apply IH; auto. }
  intros x. induction t using term_ind'; intros u; simpl; split; intros G;
    repeat match goal with
           | H : cbind _ _ = COk _ |- _ => apply cbind_ok in H as (? & ? & ?)
           | H : COk _ = COk _ |- _ => inversion H; subst; clear H
           end; try discriminate; try (inversion G; subst; auto; fail); try (constructor; auto; fail).
  - destruct (String.eqb_spec r StackDelim) as [->|N]; constructor; auto.
  - inversion G as [|r0 N| | | | | | | | | | |]; subst; auto. apply String.eqb_neq in N. unfold StackDelim. rewrite N. auto.
  - constructor. apply L; auto.
  - inversion G; subst. match goal with F : Forall2 _ _ _ |- _ => apply L in F; auto; rewrite F end. auto.
  - constructor. apply L; auto.
  - inversion G; subst. match goal with F : Forall2 _ _ _ |- _ => apply L in F; auto; rewrite F end. auto.
  - constructor; [apply IHt1|apply IHt2]; auto.
  - inversion G as [| | | | | | | |? ? ? ? ? ? ? P1 P2| | | |]; subst. apply IHt1 in P1. apply IHt2 in P2. rewrite P1. simpl. rewrite P2. auto.
  - constructor. apply IHt. auto.
  - inversion G; subst. match goal with F : put _ _ _ |- _ => apply IHt in F; rewrite F end. auto.
  - constructor. apply IHt. auto.
  - inversion G; subst. match goal with F : put _ _ _ |- _ => apply IHt in F; rewrite F end. auto.
  - constructor. apply IHt. auto.
  - inversion G; subst. match goal with F : put _ _ _ |- _ => apply IHt in F; rewrite F end. auto.
  - constructor. apply IHt. auto.
  - inversion G; subst. apply IHt. auto.
Qed.

Lemma keys_aset : forall A k (v : A) l x, In x (keys (aset k v l)) <-> x = k \/ In x (keys l).
Proof.
  intros A k v l x. induction l as [|[a b] l IH]; simpl; [intuition|].
  destruct (String.eqb_spec k a) as [->|]; simpl; [intuition|]. rewrite IH. intuition.
Qed.
Lemma NoDup_aset : forall A k (v : A) l, NoDup (keys l) -> NoDup (keys (aset k v l)).
Proof.
  intros A k v l. induction l as [|[a b] l IH]; simpl; intros N; [repeat constructor; simpl; tauto|].
  inversion N; subst. destruct (String.eqb_spec k a) as [->|NE]; simpl; [constructor; auto|]. constructor; auto.
  rewrite keys_aset. intuition.
Qed.

(** One stack. *)
Lemma resolve_layers_spec : forall r n layers i g g2, i + length layers = n ->
  resolve_layers r n i (level r i) layers g = COk g2 ->
  (forall j t, nth_error layers j = Some t ->
     exists u, lookup (level r (i + j)) g2 = Some u /\ put (next_level r n (i + j)) t u) /\
  (forall x, (forall j, i <= j < n -> x <> level r j) -> lookup x g2 = lookup x g) /\
  (NoDup (keys g) -> NoDup (keys g2)).
Proof.
  intros r n. induction layers as [|t layers IH]; intros i g g2 E H; simpl in H.
  - inversion H; subst. split; [intros [|j] t; discriminate|]. auto.
  - simpl in E. apply cbind_ok in H as (u & Hu & H). rewrite layer_name_next in H, Hu by lia.
    apply term_resolve_put in Hu.
    destruct (Nat.eq_dec (S i) n) as [L|NL].
    + (* the last layer *)
      assert (layers = []) as -> by (destruct layers; simpl in *; [auto|lia]).
      simpl in H. inversion H; subst g2. split; [|split].
      * intros [|j] t' N; simpl in N; [|destruct j; discriminate]. inversion N; subst t'. exists u.
        rewrite Nat.add_0_r, lookup_aset_eq. auto.
      * intros x X. apply lookup_aset_neq. intro Q. subst x. apply (X i); [lia|auto].
      * apply NoDup_aset.
    + assert (NX : next_level r n i = level r (i + 1)).
      { unfold next_level. destruct (Nat.eqb_spec (S i) n); [lia|]. f_equal. lia. }
      rewrite NX in H, Hu. destruct (IH (i + 1) _ _ ltac:(lia) H) as (A & B & C). split; [|split].
      * intros [|j] t' N; simpl in N.
        -- inversion N; subst t'. exists u. rewrite Nat.add_0_r. split; [|rewrite NX; auto].
           rewrite B; [apply lookup_aset_eq|]. intros j J Q. destruct i as [|i].
           ++ destruct j; [lia|]. change (level r 0) with r in Q. simpl in Q. clear -Q. 
              assert (LN : forall a b, a <> (a ++ String "@" b)%string).
              { induction a as [|c a IHa]; intros b E; simpl in E; [discriminate|]. inversion E. eapply IHa; eauto. }
              eapply LN; eauto.
           ++ apply level_inj in Q as [_ Q]; lia.
        -- destruct (A _ _ N) as (v & V & P). exists v. replace (i + S j) with (i + 1 + j) by lia. auto.
      * intros x X. rewrite B by (intros j J; apply X; lia). apply lookup_aset_neq. intro Q. subst x. apply (X i); [lia|auto].
      * intros N. apply C. apply NoDup_aset. auto.
Qed.

Lemma resolve_layers_ok : forall r n layers i old g, i + length layers = n ->
  (forall j t, nth_error layers j = Some t -> exists u, put (next_level r n (i + j)) t u) ->
  exists g2, resolve_layers r n i old layers g = COk g2.
Proof.
  intros r n. induction layers as [|t layers IH]; intros i old g E H; simpl; [eauto|]. simpl in E.
  destruct (H 0 t eq_refl) as (u & U). rewrite Nat.add_0_r in U. rewrite layer_name_next by lia.
  apply term_resolve_put in U. rewrite U. simpl. apply IH; [lia|].
  intros j t' N. replace (i + 1 + j) with (i + S j) by lia. apply (H (S j)). auto.
Qed.

Definition layered (todo : grammar) (x : string) : Prop :=
  exists r layers i, In (r, TStack layers) todo /\ i < length layers /\ x = level r i.

Lemma level_unique : forall g r ls i r' ls' i', clear_names g -> lookup r g = Some (TStack ls) -> lookup r' g = Some (TStack ls') ->
  i < length ls -> i' < length ls' -> level r i = level r' i' -> r = r' /\ i = i'.
Proof.
  intros g r ls i r' ls' i' C L L' I I' E. destruct i as [|i], i' as [|i'].
  - auto.
  - exfalso. change (level r 0) with r in E. subst r. rewrite (C r' ls' (S i') L' ltac:(lia)) in L. discriminate.
  - exfalso. change (level r' 0) with r' in E. subst r'. rewrite (C r ls (S i) L ltac:(lia)) in L'. discriminate.
  - apply level_inj in E; auto.
Qed.

Lemma loop_spec : forall gg, NoDup (keys gg) -> clear_names gg ->
  forall todo, NoDup (keys todo) -> (forall kv, In kv todo -> In kv gg) ->
  forall g g2, resolve_stacks_loop todo g = COk g2 ->
  (forall r layers i t, In (r, TStack layers) todo -> nth_error layers i = Some t ->
     exists u, lookup (level r i) g2 = Some u /\ put (next_level r (length layers) i) t u) /\
  (forall x, ~ layered todo x -> lookup x g2 = lookup x g) /\
  (NoDup (keys g) -> NoDup (keys g2)).
Proof.
  intros gg ND CL. induction todo as [|[r t] todo IH]; intros NT SUB g g2 H; simpl in H.
  - inversion H; subst. split; [intros ? ? ? ? []|]. auto.
  - inversion NT as [|? ? N1 N2]; subst.
    assert (SUB' : forall kv, In kv todo -> In kv gg) by (intros; apply SUB; right; auto).
    assert (DONE : (forall ls, t <> TStack ls) -> resolve_stacks_loop todo g = COk g2 ->
      (forall r0 layers i t0, In (r0, TStack layers) ((r, t) :: todo) -> nth_error layers i = Some t0 ->
         exists u, lookup (level r0 i) g2 = Some u /\ put (next_level r0 (length layers) i) t0 u) /\
      (forall x, ~ layered ((r, t) :: todo) x -> lookup x g2 = lookup x g) /\
      (NoDup (keys g) -> NoDup (keys g2))).
    { intros NS H'. destruct (IH N2 SUB' _ _ H') as (A & B & C). split; [|split; auto].
      - intros r0 ls i t0 [X|X]; [inversion X; subst; exfalso; eapply NS; eauto|eauto].
      - intros x X. apply B. intros (r0 & ls & i & Y & Z). apply X. exists r0, ls, i. split; [right; auto|auto]. }
    destruct t; try (apply DONE; [discriminate|exact H]). clear DONE.
    apply cbind_ok in H as (g1 & H1 & H).
    destruct (resolve_layers_spec r (length ts) ts 0 g g1 eq_refl H1) as (A1 & B1 & C1).
    destruct (IH N2 SUB' _ _ H) as (A & B & C).
    assert (LR : lookup r gg = Some (TStack ts)) by (apply In_lookup; auto; apply SUB; left; auto).
    split; [|split; auto].
    + intros r0 ls i t0 [X|X] N; [|eauto]. inversion X; subst r0 ls. destruct (A1 _ _ N) as (u & U & P).
      simpl in U, P. exists u. split; auto. rewrite B; auto.
      intros (r' & ls' & i' & X' & I' & E). assert (I : i < length ts) by (apply nth_error_Some; congruence).
      destruct (level_unique gg r ts i r' ls' i' CL LR) as [-> ->]; auto; [apply In_lookup; auto|].
      apply N1. apply in_map_iff. exists (r', TStack ls'). auto.
    + intros x X. rewrite B; [apply B1|].
      * intros j J Q. apply X. exists r, ts, j. split; [left; auto|]. split; [lia|auto].
      * intros (r' & ls' & i' & X' & Y). apply X. exists r', ls', i'. split; [right; auto|auto].
Qed.

Lemma loop_ok : forall todo g,
  (forall r layers i t, In (r, TStack layers) todo -> nth_error layers i = Some t -> exists u, put (next_level r (length layers) i) t u) ->
  exists g2, resolve_stacks_loop todo g = COk g2.
Proof.
  induction todo as [|[r t] todo IH]; intros g H; simpl; [eauto|].
  assert (D : forall g, exists g2, resolve_stacks_loop todo g = COk g2) by (intros; apply IH; intros; eapply H; [right; eauto|eauto]).
  destruct t; auto. destruct (resolve_layers_ok r (length ts) ts 0 r g eq_refl) as (g1 & E).
  - intros j t N. apply (H r ts j t); [left; auto|auto].
  - rewrite E. simpl. auto.
Qed.

Lemma loop_layers : forall todo g g2, resolve_stacks_loop todo g = COk g2 ->
  forall r layers i t, In (r, TStack layers) todo -> nth_error layers i = Some t -> exists u, put (next_level r (length layers) i) t u.
Proof.
  induction todo as [|[r t] todo IH]; intros g g2 H r0 ls i t0 I N; [destruct I|]. simpl in H.
  destruct I as [I|I].
  - inversion I; subst. apply cbind_ok in H as (g1 & H1 & _).
    destruct (resolve_layers_spec r0 (length ls) ls 0 g g1 eq_refl H1) as (A & _). destruct (A _ _ N) as (u & _ & P). eauto.
  - destruct t; eauto. apply cbind_ok in H as (g1 & H1 & H). eauto.
Qed.

Lemma no_stack_existsb : forall g, existsb (fun kv : string * term => is_stack (snd kv)) g = false ->
  forall r ls, ~ In (r, TStack ls) g.
Proof.
  intros g H r ls I. rewrite <- not_true_iff_false in H. apply H. apply existsb_exists. exists (r, TStack ls). auto.
Qed.

(** What [resolve_stacks] does. *)
Lemma resolve_stacks_spec : forall g g2, NoDup (keys g) -> clear_names g -> resolve_stacks g = COk g2 ->
  unstacked g g2 /\ NoDup (keys g2) /\
  (forall x, ~ layered g x -> lookup x g2 = lookup x g).
Proof.
  intros g g2 ND CL H.
  assert (X : (forall r layers i t, In (r, TStack layers) g -> nth_error layers i = Some t ->
     exists u, lookup (level r i) g2 = Some u /\ put (next_level r (length layers) i) t u) /\
   (forall x, ~ layered g x -> lookup x g2 = lookup x g) /\ (NoDup (keys g) -> NoDup (keys g2))).
  { unfold resolve_stacks in H. destruct (existsb _ g) eqn:E.
    - apply (loop_spec g ND CL g ND (fun _ I => I) g g2 H).
    - inversion H; subst. split; [|auto]. intros r ls i t I. exfalso. eapply no_stack_existsb; eauto. }
  destruct X as (A & B & C). split; [|split; auto]. constructor.
  - intros r t L NS. rewrite B; auto. intros (r' & ls & i & I & Li & E).
    assert (L' : lookup r' g = Some (TStack ls)) by (apply In_lookup; auto).
    destruct i as [|i]; [change (level r' 0) with r' in E; subst; rewrite L in L'; inversion L'; subst; destruct ls; [simpl in Li; lia|eapply NS; eauto]|].
    subst. rewrite (CL r' ls (S i) L' ltac:(lia)) in L. discriminate.
  - intros r ls i t L. apply A. apply lookup_In in L. auto.
  - intros x N. destruct (lookup x g) eqn:E; [left; discriminate|right].
    assert (LY : ~ ~ layered g x) by (intros Q; apply N; rewrite B; auto).
    assert (D : layered g x \/ ~ layered g x).
    { clear -ND. unfold layered. induction g as [|[r t] g IH]; [right; intros (? & ? & ? & [] & _)|].
      inversion ND; subst. destruct (IH H2) as [(r' & ls & i & I & L)|N]; [left; exists r', ls, i; split; [right; auto|auto]|].
      assert (DEC : (exists ls i, t = TStack ls /\ i < length ls /\ x = level r i) \/ ~ (exists ls i, t = TStack ls /\ i < length ls /\ x = level r i)).
      { destruct t; try (right; intros (? & ? & ? & _); discriminate).
        assert (Q : forall n, (exists i, i < n /\ x = level r i) \/ ~ (exists i, i < n /\ x = level r i)).
        { induction n as [|n IHn]; [right; intros (? & ? & _); lia|]. destruct IHn as [(i & L & Y)|Y]; [left; exists i; split; [lia|auto]|].
          destruct (string_dec x (level r n)) as [->|NE]; [left; exists n; auto|].
          right. intros (i & L & Z). assert (i < n \/ i = n) as [?| ->] by lia; [apply Y; eauto|congruence]. }
        destruct (Q (length ts)) as [(i & L & Y)|Y]; [left; exists ts, i; auto|].
        right. intros (ls & i & E & L & Z). inversion E; subst. apply Y; eauto. }
      destruct DEC as [(ls & i & -> & L & Y)|Y]; [left; exists r, ls, i; split; [left; auto|auto]|].
      right. intros (r' & ls & i & [E|I] & L & Z); [inversion E; subst; apply Y; eauto|apply N; exists r', ls, i; auto]. }
    destruct D as [(r & ls & i & I & Li & ->)|D]; [|tauto]. 
    assert (L' : lookup r g = Some (TStack ls)) by (apply In_lookup; auto).
    exists r, ls, i. split; auto. split; auto. destruct i; [change (level r 0) with r in E; congruence|lia].
Qed.

Lemma put_fun : forall x t u v, put x t u -> put x t v -> u = v.
Proof. intros x t u v A B. apply term_resolve_put in A. apply term_resolve_put in B. congruence. Qed.

Lemma unstacked_fun : forall g a b, NoDup (keys g) -> clear_names g -> unstacked g a -> unstacked g b -> forall x, lookup x a = lookup x b.
Proof.
  assert (G : forall g a b, clear_names g -> unstacked g a -> unstacked g b -> forall x u, lookup x a = Some u -> lookup x b = Some u).
  { intros g a b CL A B x u L.
    assert (LAYER : forall r ls i, lookup r g = Some (TStack ls) -> i < length ls -> x = level r i -> lookup x b = Some u).
    { intros r ls i LG I ->. destruct (nth_error ls i) as [t|] eqn:N; [|apply nth_error_None in N; lia].
      destruct (us_layer _ _ A _ _ _ _ LG N) as (u1 & L1 & P1). destruct (us_layer _ _ B _ _ _ _ LG N) as (u2 & L2 & P2).
      rewrite L in L1. inversion L1; subst. rewrite L2. f_equal. eapply put_fun; eauto. }
    destruct (us_only _ _ A x) as [N|(r & ls & i & LG & I & E)]; [congruence| |eapply LAYER; eauto; lia].
    destruct (lookup x g) as [t|] eqn:LG; [|congruence].
    assert (DEC : (exists l ls, t = TStack (l :: ls)) \/ forall l ls, t <> TStack (l :: ls)).
    { destruct t as [| | | | | | |[|l ls]| | | | | |]; try (right; discriminate). left; eauto. }
    destruct DEC as [(l & ls & ->)|NS].
    - apply (LAYER x (l :: ls) 0); auto. simpl. lia.
    - pose proof (us_rule _ _ A _ _ LG NS) as L1. rewrite L in L1. inversion L1; subst. apply (us_rule _ _ B); auto. }
  intros g a b ND CL A B x. destruct (lookup x a) as [u|] eqn:L.
  - symmetry. eapply G; eauto.
  - destruct (lookup x b) as [u|] eqn:L2; auto. exfalso. rewrite (G _ _ _ CL B A _ _ L2) in L. discriminate.
Qed.

(** * Related parsers *)

Inductive psame : parser -> parser -> Prop :=
| pm_rule : forall n r, psame (PRule n r) (PRule n r)
| pm_link : forall r, psame (PLink r) (PLink r)
| pm_s : forall r x re, psame (PS r x re) (PS r x re)
| pm_re : forall r x re, psame (PRE r x re) (PRE r x re)
| pm_ref : forall i d, psame (PREF i d) (PREF i d)
| pm_ext : forall x, psame (PExt x) (PExt x)
| pm_seq : forall r ids ps ps', Forall2 psame ps ps' -> psame (PSeq r ids ps) (PSeq r ids ps')
| pm_oneof : forall r ps ps', Forall2 psame ps ps' -> psame (POneof r ps) (POneof r ps')
| pm_delim : forall r a cs ce p p', psame p p' -> psame (PDelim r a cs ce p) (PDelim r a cs ce p')
| pm_look : forall r p p', psame p p' -> psame (PLook r p) (PLook r p')
| pm_quant : forall r mn mx p p', psame p p' -> psame (PQuant r mn mx p) (PQuant r mn mx p')
| pm_cut : forall p p', psame p p' -> psame (PCut p) (PCut p')
| pm_scoped : forall rs rs' p p', rules_same rs rs' -> psame p p' -> psame (PScoped rs p) (PScoped rs' p')
with rules_same : list (string * parser) -> list (string * parser) -> Prop :=
| rsm : forall rs rs', (forall r, lookup r rs = None -> lookup r rs' = None) ->
    (forall r q, lookup r rs = Some q -> exists q', lookup r rs' = Some q' /\ psame q q') -> rules_same rs rs'.

Lemma psame_refl : forall p, psame p p.
Proof.
  induction p using parser_ind'; constructor; auto.
  - induction H; constructor; auto.
  - induction H; constructor; auto.
  - constructor; auto. intros r q L. exists q. split; auto. apply lookup_In in L. rewrite Forall_forall in H. apply (H _ L).
Qed.
Lemma rules_same_refl : forall rs, rules_same rs rs.
Proof. intros rs. constructor; auto. intros r q L. exists q. split; auto. apply psame_refl. Qed.

Lemma psame_reg : forall p p', psame p p' -> psame (reg p) (reg p').
Proof. intros p p' H. destruct H; simpl; constructor; auto. Qed.

Lemma resolve_link_same : forall e e' r, Forall2 rules_same e e' ->
  match resolve_link e r with
  | Some (q, e1) => exists q' e1', resolve_link e' r = Some (q', e1') /\ psame q q' /\ Forall2 rules_same e1 e1'
  | None => resolve_link e' r = None
  end.
Proof.
  intros e e' r H. induction H as [|rs rs' e e' RS F IH]; simpl; auto.
  inversion RS as [? ? N S]; subst. destruct (lookup r rs) as [q|] eqn:L.
  - destruct (S _ _ L) as (q' & L' & P). rewrite L'. do 2 eexists. split; eauto.
  - rewrite (N _ L). destruct (resolve_link e r) as [[q e1]|]; auto.
Qed.

Lemma is_cut0_same : forall p p', psame p p' -> is_cut0 p = is_cut0 p'.
Proof.
  induction p using parser_ind'; intros p' S; inversion S; subst; simpl; auto.
Qed.
Lemma is_cut_same : forall e e' p p', Forall2 rules_same e e' -> psame p p' -> is_cut e p = is_cut e' p'.
Proof.
  intros e e' p p' E S. destruct p; inversion S; subst; auto; try (apply is_cut0_same; auto; fail).
  simpl. pose proof (resolve_link_same e e' t E) as R. destruct (resolve_link e t) as [[q e1]|].
  - destruct R as (q' & e1' & -> & Q & _). apply is_cut0_same; auto.
  - rewrite R. auto.
Qed.

Section Run.
  Variable c : config.

  Lemma parse_same : forall f e e' p p' sc s k, Forall2 rules_same e e' -> psame p p' ->
    parse c f e p sc s k = parse c f e' p' sc s k.
  Proof.
    induction f as [|f IH]; intros e e' p p' sc s k EE P; [reflexivity|].
    assert (SEQ : forall rule ps ps', Forall2 psame ps ps' -> forall ids sc s k acc,
      seq_loop c (parse c f e) (is_cut e) rule ids ps sc s k acc = seq_loop c (parse c f e') (is_cut e') rule ids ps' sc s k acc).
    { induction 1 as [|p1 p2 ps ps' S F IHF]; intros; cbn [seq_loop]; auto.
      rewrite (IH e e' p1 p2) by auto. rewrite (is_cut_same e e' p1 p2) by auto.
      destruct (parse c f e' p2 sc0 s0 k0) as [[[v|er| |] s1] k1]; auto.
      destruct (if is_cut e' p2 then _ else _) as [sc1 k2]. auto. }
    assert (ALT : forall rule ps ps', Forall2 psame ps ps' -> forall i sc pc mc s fur k,
      oneof_loop (parse c f e) rule i ps sc pc mc s fur k = oneof_loop (parse c f e') rule i ps' sc pc mc s fur k).
    { induction 1 as [|p1 p2 ps ps' S F IHF]; intros; cbn [oneof_loop]; auto.
      rewrite (IH e e' p1 p2) by auto.
      destruct (parse c f e' p2 sc0 s0 k0) as [[[v|er| |] s1] k1]; auto. destruct (not_my_fatal er mc); auto. }
    assert (REP : forall rule mn mx p1 p2, psame p1 p2 -> forall n sc pc mc s k acc,
      quant_loop (parse c f e) n rule mn mx p1 sc pc mc s k acc = quant_loop (parse c f e') n rule mn mx p2 sc pc mc s k acc).
    { intros rule mn mx p1 p2 S. induction n as [|n IHn]; intros; cbn [quant_loop]; auto.
      rewrite (IH e e' p1 p2) by auto. destruct (_ || _); auto.
      destruct (parse c f e' p2 sc0 s0 k0) as [[[v|er| |] s1] k1]; auto. }
    assert (ESC : forall sc s k f1 f2, f1 tt = f2 tt -> with_escape c sc s k f1 = with_escape c sc s k f2).
    { intros. unfold with_escape. destruct (cf_esc c); auto. destruct (eat_regexp _ _ _ _); auto. }
    destruct P; cbn [parse]; auto; try (apply ESC).
    - pose proof (resolve_link_same e e' r EE) as R. destruct (resolve_link e r) as [[q e1]|].
      + destruct R as (q' & e1' & -> & Q & E1). auto.
      + rewrite R. auto.
    - destruct (replace_cut c false sc k) as [[[? ?] ?] ?]. auto.
    - rewrite (IH e e' p p') by auto. auto.
    - rewrite (IH e e' p p') by auto. auto.
    - destruct (replace_cut c false sc k) as [[[? ?] ?] ?]. auto.
  Qed.

  Lemma parse_rule_same : forall f ps ps' r s, rules_same (p_rules ps) (p_rules ps') ->
    parse_rule c f ps r s = parse_rule c f ps' r s.
  Proof.
    intros f ps ps' r s RS. unfold parse_rule. inversion RS as [? ? N S]; subst.
    destruct (lookup r (p_rules ps)) as [q|] eqn:L.
    - destruct (S _ _ L) as (q' & -> & P). rewrite (parse_same f [p_rules ps] [p_rules ps'] q q'); auto.
    - rewrite (N _ L). auto.
  Qed.
End Run.
