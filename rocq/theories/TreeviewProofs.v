(** Proofs about tree views. *)
From Verif Require Import Base Scanner Syntax Resolve Ast AstSpec AstProofs Gotree GotreeSpec GotreeProofs Treeview TreeviewSpec.
From Coq Require Import DecimalString Sorting.Sorted.
From Coq Require DecimalNat.
Local Open Scope nat_scope.

(** * Numbers *)

Lemma dec_value : forall d acc, digits_value (bs (NilEmpty.string_of_uint d)) (Z.of_nat acc) = Z.of_nat (Nat.of_uint_acc d acc).
Proof.
  induction d as [|d IH|d IH|d IH|d IH|d IH|d IH|d IH|d IH|d IH|d IH]; intros acc; [reflexivity|..];
    cbn [NilEmpty.string_of_uint]; unfold bs; cbn [list_ascii_of_string digits_value]; fold (bs (NilEmpty.string_of_uint d)); cbn [Nat.of_uint_acc];
    rewrite Nat.tail_mul_spec; match goal with |- context [nat_of_ascii ?c] => let v := eval vm_compute in (nat_of_ascii c) in change (nat_of_ascii c) with v end;
    rewrite <- IH; f_equal; lia.
Qed.
Lemma dec_digits : forall d, forallb is_digit (bs (NilEmpty.string_of_uint d)) = true.
Proof. induction d; auto. Qed.
Lemma to_uint_no_zero : forall n d, Nat.to_uint n = Decimal.D0 d -> d = Decimal.Nil.
Proof.
  intros n d E. pose proof (DecimalNat.Unsigned.to_of (Nat.to_uint n)) as H. rewrite DecimalNat.Unsigned.of_to in H. rewrite E in H. cbn [Decimal.unorm Decimal.nzhead] in H.
  assert (Z : forall x y, Decimal.nzhead x <> Decimal.D0 y) by (induction x; intros y; cbn; try discriminate; auto).
  unfold Decimal.unorm in H. cbn [Decimal.nzhead] in H. specialize (Z d d). destruct (Decimal.nzhead d); congruence.
Qed.
Lemma to_uint_not_nil : forall n, Nat.to_uint n <> Decimal.Nil.
Proof. intros n E. pose proof (DecimalNat.Unsigned.to_of (Nat.to_uint n)) as H. rewrite DecimalNat.Unsigned.of_to, E in H. discriminate. Qed.
Lemma take_digits_app : forall w r, forallb is_digit w = true -> match r with [] => True | c :: _ => is_digit c = false end -> take_digits (w ++ r) = w.
Proof.
  induction w as [|c w IH]; intros r W R; simpl.
  - destruct r as [|c r]; auto. simpl. now rewrite R.
  - simpl in W. apply andb_prop in W as [C W]. rewrite C. f_equal. auto.
Qed.
Lemma leading_dec : forall n r, match r with [] => True | c :: _ => is_digit c = false end ->
  leading_number (bs (dec n) ++ r) = if Nat.eqb n 0 then None else Some (bs (dec n)).
Proof.
  intros n r R. unfold dec. pose proof (to_uint_no_zero n) as Z. pose proof (to_uint_not_nil n) as NN.
  pose proof (DecimalNat.Unsigned.of_to n) as O. pose proof (dec_digits (Nat.to_uint n)) as D.
  destruct (Nat.eqb n 0) eqn:E.
  - apply Nat.eqb_eq in E. subst n. reflexivity.
  - apply Nat.eqb_neq in E. destruct (Nat.to_uint n) as [|d|d|d|d|d|d|d|d|d|d] eqn:U; [congruence| |..].
    { rewrite (Z d eq_refl) in O. unfold Nat.of_uint in O. cbn in O. symmetry in O. contradiction. }
    all: cbn [NilEmpty.string_of_uint] in *; unfold bs in *; cbn [list_ascii_of_string app forallb] in *; fold (bs (NilEmpty.string_of_uint d)) in *;
      apply andb_prop in D as [D1 D2]; unfold leading_number; rewrite D1; simpl; now rewrite take_digits_app.
Qed.
Lemma atoi_dec : forall n, (Z.of_nat n <= max_int)%Z -> atoi (bs (dec n)) = Some (Z.of_nat n).
Proof.
  intros n L. unfold atoi, dec. pose proof (dec_value (Nat.to_uint n) 0) as V. simpl Z.of_nat in V. rewrite V.
  pose proof (DecimalNat.Unsigned.of_to n) as O. unfold Nat.of_uint in O. rewrite O. unfold max_int in L. apply Z.leb_le in L. now rewrite L.
Qed.

(** * Labels *)

Lemma special_odd : forall c, special_char c = true <-> odd_char c.
Proof.
  intros c. unfold special_char, odd_char. rewrite !Bool.orb_true_iff, Nat.ltb_lt, Nat.eqb_eq, existsb_exists.
  split; [intros [[H|H]|(x & I & E)]; auto; apply Ascii.eqb_eq in E; subst; auto|].
  intros [H|[H|H]]; auto. right. exists c. split; auto. apply Ascii.eqb_refl.
Qed.
Lemma special_text : forall x, existsb special_char x = true <-> exists c, In c x /\ odd_char c.
Proof. intros x. rewrite existsb_exists. split; intros (c & I & H); exists c; split; auto; now apply special_odd. Qed.
Lemma quote_text : forall (q : ascii) x, existsb (Ascii.eqb q) x = true <-> In q x.
Proof.
  intros q x. rewrite existsb_exists. split; [intros (c & I & E); apply Ascii.eqb_eq in E; now subst|]. intros I. exists q. split; auto. apply Ascii.eqb_refl.
Qed.
Lemma decz_nat : forall n, decz (Z.of_nat n) = bs (dec n).
Proof. intros n. unfold decz. destruct (Z.ltb_spec (Z.of_nat n) 0); [lia|]. now rewrite Nat2Z.id. Qed.
Lemma label_string : forall quote s x, label quote s x <-> leaf_string quote s = Some x /\ (0 <= offset s)%Z.
Proof.
  intros quote s x. unfold leaf_string. split.
  - intros L. inversion L as [n y c O E I C|n y O E N Q|n y O E N Q]; subst; rewrite E, O, decz_nat; split; try lia.
    + rewrite (proj2 (special_text y)); eauto.
    + destruct (existsb special_char y) eqn:S; [apply special_text in S as (c & I & C); exfalso; eapply N; eauto|].
      now rewrite (proj2 (quote_text _ y) Q).
    + destruct (existsb special_char y) eqn:S; [apply special_text in S as (c & I & C); exfalso; eapply N; eauto|].
      destruct (existsb (Ascii.eqb """") y) eqn:T; auto. apply quote_text in T. tauto.
  - intros [E O]. destruct (sstring s) as [y|] eqn:Y; [|discriminate]. injection E as <-.
    assert (ON : offset s = Z.of_nat (Z.to_nat (offset s))) by lia. rewrite ON at 1. rewrite decz_nat.
    destruct (existsb special_char y) eqn:S.
    + apply special_text in S as (c & I & C). econstructor 1; eauto.
    + assert (N : forall c, In c y -> ~ odd_char c).
      { intros c I C. assert (existsb special_char y = true) by (apply special_text; eauto). congruence. }
      destruct (existsb (Ascii.eqb """") y) eqn:T.
      * apply quote_text in T. now constructor 2.
      * constructor 3; auto. intros I. apply quote_text in I. congruence.
Qed.

(** * The groups of a branch *)

Section View.
  Variables (quote : bytes -> bytes) (extra : adata -> bytes) (skip : bool).
  Variables (ord : list nat -> list (list gtree) -> list (list gtree))
            (sorter : list nat -> list (Z * gtree) -> list (Z * gtree)).
  Notation from_ast := (from_ast quote extra skip ord sorter).

  Fixpoint many_trees (path : list nat) (i j : nat) (k : string) (ns : list anode) : option (list gtree) :=
    match ns with
    | [] => Some []
    | n :: ns' => match from_ast (path ++ [i; j]) k n, many_trees path i (S j) k ns' with Some t, Some ts => Some (t :: ts) | _, _ => None end
    end.
  Definition kid_trees (path : list nat) (i : nat) (k : string) (c : children anode) : option (list gtree) :=
    match c with
    | One n => match from_ast (path ++ [i; 0]) k n with Some t => Some [t] | None => None end
    | Many ns => many_trees path i 0 k ns
    end.
  Fixpoint groups (path : list nat) (i : nat) (b : branch) : option (list (list gtree)) :=
    match b with
    | [] => Some []
    | (k, c) :: b' =>
        if (skip && String.prefix "@" k)%bool then groups path (S i) b'
        else match kid_trees path i k c, groups path (S i) b' with Some ts, Some gs => Some (ts :: gs) | _, _ => None end
    end.
  Lemma from_ast_branch : forall path k b, from_ast path k (ABranch b) =
    match groups path 0 b with Some gs => finish sorter path (GTree (bs k) (concat (ord path gs))) | None => None end.
  Proof.
    intros path k b. cbn [Treeview.from_ast].
    match goal with |- match ?f 0 b with _ => _ end = _ => assert (X : forall b i, f i b = groups path i b) end.
    { clear. induction b as [|[k c] b IH]; intros i; auto. cbn [groups]. destruct (skip && String.prefix "@" k)%bool; [apply IH|].
      destruct c as [n|ns]; cbn [kid_trees].
      - destruct (from_ast (path ++ [i; 0]) k n); auto. rewrite IH. reflexivity.
      - match goal with |- match ?f 0 ns with _ => _ end = _ => assert (X : forall ns j, f j ns = many_trees path i j k ns) end.
        { clear. induction ns as [|n ns IH]; intros j; auto. cbn [many_trees]. destruct (from_ast (path ++ [i; j]) k n); auto. rewrite IH. reflexivity. }
        rewrite X. destruct (many_trees path i 0 k ns); auto. rewrite IH. reflexivity. }
    rewrite X. reflexivity.
  Qed.
End View.

(** * The ends of a view *)

Lemma tips_items : forall x ts, ts <> [] -> tips (GTree x ts) = flat_map tips ts.
Proof. intros x [|t ts] N; [congruence|]. reflexivity. Qed.
Lemma ranks_fst : forall ts l, ranks ts = Some l -> map snd l = ts /\ Forall2 (fun t rt => rank t = Some (fst rt)) ts l.
Proof.
  induction ts as [|t ts IH]; intros l E; simpl in E; [inversion E; auto|].
  destruct (rank t) eqn:R; [|discriminate]. destruct (ranks ts) as [l'|] eqn:RS; [|discriminate]. inversion E; subst.
  destruct (IH _ eq_refl) as [<- F]. split; auto.
Qed.
Lemma finish_tips : forall sorter path x ts t, (forall l, Permutation (sorter path l) l) -> finish sorter path (GTree x ts) = Some t ->
  Permutation (tips t) (tips (GTree x ts)).
Proof.
  intros sorter path x ts t P E. unfold finish in E.
  assert (S : forall t, sort_items (sorter path) (GTree x ts) = Some t -> Permutation (tips t) (tips (GTree x ts))).
  { clear E t. intros t E. unfold sort_items in E. cbn [gitems gtext] in E. destruct ts as [|a [|b ts]]; try (injection E as <-; solve [auto]).
    destruct (ranks (a :: b :: ts)) as [l|] eqn:R; [|discriminate]. injection E as <-. apply ranks_fst in R as [R _].
    assert (Q : Permutation (map snd (sorter path l)) (a :: b :: ts)) by (rewrite <- R; apply Permutation_map, P).
    rewrite !tips_items; [apply Permutation_flat_map; exact Q|discriminate|].
    intros N. rewrite N in Q. apply Permutation_nil in Q. discriminate. }
  destruct ts as [|[y us] ts]; auto. destruct us as [|u us]; auto. destruct us as [|u' us]; auto. destruct ts; auto.
  injection E as <-. simpl. rewrite !app_nil_r. auto.
Qed.
Lemma perm_concat : forall A (a b : list (list A)), Permutation a b -> Permutation (concat a) (concat b).
Proof.
  induction 1; simpl; auto; [now apply Permutation_app_head|rewrite !app_assoc; apply Permutation_app_tail, Permutation_app_comm|etransitivity; eauto].
Qed.
Lemma flat_map_concat_map' : forall A B (f : A -> list B) l, flat_map f (concat l) = concat (map (flat_map f) l).
Proof. induction l as [|x l IH]; auto. simpl. now rewrite flat_map_app, IH. Qed.

Lemma prefix_at : forall k, String.prefix "@" k = true <-> exists r, k = String "@" r.
Proof.
  intros [|c k]; [split; [discriminate|intros [r E]; discriminate]|].
  change (String.prefix "@" (String c k)) with (if ascii_dec "@" c then String.prefix "" k else false).
  destruct (ascii_dec "@" c) as [<-|N]; [split; eauto; destruct k; auto|]. split; [discriminate|]. intros [r E]. injection E as E _. congruence.
Qed.
Lemma hidden_b : forall skip k, (skip && String.prefix "@" k)%bool = true <-> hidden skip k.
Proof. intros skip k. rewrite Bool.andb_true_iff, prefix_at. reflexivity. Qed.

Section Ends.
  Variables (quote : bytes -> bytes) (extra : adata -> bytes) (skip : bool).
  Variables (ord : list nat -> list (list gtree) -> list (list gtree))
            (sorter : list nat -> list (Z * gtree) -> list (Z * gtree)).
  Hypothesis O : any_order ord.
  Hypothesis S : forall p l, Permutation (sorter p l) l.
  Notation from_ast := (from_ast quote extra skip ord sorter).
  Notation groups := (groups quote extra skip ord sorter).
  Notation kid_trees := (kid_trees quote extra skip ord sorter).
  Notation many_trees := (many_trees quote extra skip ord sorter).

  Definition node_ends (n : anode) : Prop := forall path k t l, from_ast path k n = Some t -> ends quote extra skip k n l -> Permutation (tips t) l.
  Definition kids_ends (c : children anode) : Prop := forall path i k ts, kid_trees path i k c = Some ts ->
    (ts = [] <-> no_nodes c) /\
    forall l, ~ hidden skip k -> ends_kids quote extra skip (k, c) l -> Permutation (flat_map tips ts) l.

  Lemma groups_ends : forall b, Forall (fun kv => kids_ends (snd kv)) b -> forall path i gs, groups path i b = Some gs ->
    (concat gs = [] <-> forall k c, In (k, c) b -> hidden skip k \/ no_nodes c) /\
    forall ls, Forall2 (ends_kids quote extra skip) b ls -> Permutation (flat_map tips (concat gs)) (concat ls).
  Proof.
    induction 1 as [|[k c] b H F IH]; intros path i gs E; cbn [TreeviewProofs.groups] in E.
    - injection E as <-. split; [split; auto; intros _ k c []|]. intros ls L. inversion L. auto.
    - destruct (skip && String.prefix "@" k)%bool eqn:HD.
      + apply hidden_b in HD. destruct (IH _ _ _ E) as [IH1 IH2]. split.
        * rewrite IH1. split; intros X k' c' I; [destruct I as [Q|I]; [inversion Q; subst; auto|eauto]|apply X; now right].
        * intros ls L. inversion L as [|? l ? ls' K L']; subst. inversion K; subst; try contradiction. simpl. auto.
      + destruct (kid_trees path i k c) as [ts|] eqn:KT; [|discriminate]. destruct (groups path (Datatypes.S i) b) as [gs'|] eqn:G; [|discriminate].
        injection E as <-. destruct (IH _ _ _ G) as [IH1 IH2]. destruct (H _ _ _ _ KT) as [H1 H2].
        assert (NH : ~ hidden skip k) by (rewrite <- hidden_b; congruence). simpl concat. split.
        * split.
          -- intros Q. apply app_eq_nil in Q as [-> Q]. intros k' c' [X|X]; [inversion X; subst; right; now apply H1|now apply IH1].
          -- intros X. destruct (X k c (or_introl eq_refl)) as [Y|Y]; [contradiction|]. apply H1 in Y. subst. simpl. apply IH1. intros. apply X. now right.
        * intros ls L. inversion L as [|? l ? ls' K L']; subst. simpl. rewrite flat_map_app. apply Permutation_app; auto.
  Qed.
  Lemma node_all : forall n, node_ends n.
  Proof.
    intros n. apply (anode_ind' node_ends kids_ends); clear n.
    - intros s path k t l E L. simpl in E. inversion L as [? ? x LB| | |]; subst. apply label_string in LB as [LB _]. rewrite LB in E. injection E as <-. auto.
    - intros d path k t l E L. simpl in E. injection E as <-. inversion L; subst. auto.
    - intros b F path k t l E L. rewrite from_ast_branch in E. destruct (groups path 0 b) as [gs|] eqn:G; [|discriminate].
      destruct (groups_ends b F _ _ _ G) as [G1 G2]. apply finish_tips in E; [|apply S]. rewrite E.
      assert (P : Permutation (concat (ord path gs)) (concat gs)) by apply perm_concat, O.
      inversion L as [| |? ? H|? ? k' c ls I NH NN H]; subst.
      + rewrite (proj2 G1 H) in P. symmetry in P. apply Permutation_nil in P. rewrite P. auto.
      + rewrite tips_items.
        * rewrite <- (G2 _ H). apply Permutation_flat_map, P.
        * intros N. rewrite N in P. apply Permutation_nil in P. destruct (proj1 G1 P _ _ I); contradiction.
    - intros n H path i k ts E. simpl in E. destruct (from_ast (path ++ [i; 0]) k n) as [t|] eqn:T; [|discriminate]. injection E as <-.
      split; [split; discriminate|]. intros l NH L. inversion L; subst; [contradiction|]. simpl. rewrite app_nil_r. eauto.
    - intros ns F path i k ts E. simpl in E. split.
      + destruct ns as [|n ns]; simpl in E; [injection E as <-; split; intros _; reflexivity|].
        destruct (from_ast _ k n); [|discriminate]. destruct (many_trees path i 1 k ns); [|discriminate]. injection E as <-. split; discriminate.
      + intros l NH L. inversion L as [| |? ? ls _ L']; subst; [contradiction|]. revert E. generalize 0 as j. revert ts ls L' L. 
        induction F as [|n ns N F IH]; intros ts ls L' L j E; cbn [TreeviewProofs.many_trees] in E.
        * injection E as <-. inversion L'. auto.
        * destruct (from_ast _ k n) as [t|] eqn:T; [|discriminate]. destruct (many_trees path i (Datatypes.S j) k ns) as [ts'|] eqn:TS; [|discriminate].
          injection E as <-. inversion L' as [|? l ? ls' E1 E2]; subst. simpl. apply Permutation_app; [eapply N; eauto|].
          eapply IH; eauto. constructor; auto.
  Qed.
End Ends.

(** C70: the ends of the view are those of the AST. *)
Theorem view_ends : forall quote extra skip ord sorter path k n t l, any_order ord -> sorts sorter ->
  ends quote extra skip k n l -> from_ast quote extra skip ord sorter path k n = Some t -> Permutation (tips t) l.
Proof. intros quote extra skip ord sorter path k n t l O S L E. eapply node_all; eauto. intros p x. apply S. Qed.

(** * Labels tell leaves apart *)

Lemma digits_end : forall a b c x y, forallb is_digit a = true -> forallb is_digit b = true -> is_digit c = false ->
  a ++ c :: x = b ++ c :: y -> a = b /\ x = y.
Proof.
  induction a as [|d a IH]; intros [|e b] c x y A B C E; simpl in *; inversion E; subst; auto.
  - rewrite C in B. discriminate.
  - rewrite C in A. discriminate.
  - apply andb_prop in A as [A1 A2]. apply andb_prop in B as [B1 B2]. destruct (IH b c x y) as [-> ->]; auto.
Qed.
Theorem label_injective : forall quote, (forall x y, quote x = quote y -> x = y) -> (forall x, exists r, quote x = """"%char :: r) ->
  forall s s' x, label quote s x -> label quote s' x -> offset s = offset s' /\ sstring s = sstring s'.
Proof.
  intros quote QI QS s s' x L L'.
  assert (X : forall s, label quote s x -> exists n t body, offset s = Z.of_nat n /\ sstring s = Some t /\ x = bs (dec n) ++ bs "‣" ++ body /\
    ((exists c, In c t /\ odd_char c) /\ body = quote t \/
     (forall c, In c t -> ~ odd_char c) /\ (body = bs "`" ++ t ++ bs "`" \/ ~ In """"%char t /\ body = t))).
  { clear. intros s L. inversion L; subst; do 3 eexists; repeat split; eauto 10. }
  destruct (X s L) as (n & t & body & O & T & -> & C). destruct (X s' L') as (n' & t' & body' & O' & T' & E & C').
  change (bs (dec n) ++ bs "‣" ++ body) with (bs (dec n) ++ "226"%char :: ("128"%char :: "163"%char :: body)) in E.
  change (bs (dec n') ++ bs "‣" ++ body') with (bs (dec n') ++ "226"%char :: ("128"%char :: "163"%char :: body')) in E.
  apply digits_end in E as [E1 E2]; [|apply dec_digits|apply dec_digits|reflexivity]. injection E2 as E2. subst body'.
  assert (n = n').
  { assert (V := dec_value (Nat.to_uint n) 0). assert (V' := dec_value (Nat.to_uint n') 0).
    pose proof (DecimalNat.Unsigned.of_to n) as U. pose proof (DecimalNat.Unsigned.of_to n') as U'. unfold Nat.of_uint in U, U'.
    rewrite U in V. rewrite U' in V'. unfold dec in E1. rewrite E1 in V. rewrite V in V'. lia. }
  subst n'. split; [congruence|]. rewrite T, T'. f_equal.
  assert (BQ : odd_char "`") by (right; right; vm_compute; auto 10).
  destruct (QS t) as [q Q]. destruct (QS t') as [q' Q'].
  destruct C as [[(c & I & OC) B]|[N B]]; destruct C' as [[(c' & I' & OC') B']|[N' B']]; subst.
  - apply QI. congruence.
  - rewrite Q in *. destruct B' as [B'|[D B']]; [discriminate B'|]. exfalso. apply D. rewrite <- B'. now left.
  - rewrite Q' in *. destruct B as [B|[D B]]; [discriminate B|]. exfalso. apply D. rewrite <- B. now left.
  - destruct B as [->|[D ->]]; destruct B' as [B'|[D' B']].
    + injection B' as B'. now apply app_inv_tail in B'.
    + exfalso. apply (N' "`"%char); auto. rewrite <- B'. now left.
    + exfalso. apply (N "`"%char); auto. rewrite B'. now left.
    + congruence.
Qed.
