(** Proofs about printed trees. *)
From Verif Require Import Base Scanner ScannerProofs Gotree GotreeSpec.

Section Ind.
  Variable P : gtree -> Prop.
  Hypothesis H : forall x ts, Forall P ts -> P (GTree x ts).
  Fixpoint gtree_ind' (t : gtree) : P t :=
    match t with
    | GTree x ts => H x ts ((fix all (l : list gtree) : Forall P l :=
        match l with [] => Forall_nil P | t :: l' => Forall_cons _ (gtree_ind' t) (all l') end) ts)
    end.
End Ind.

(** * Lines *)

Lemma lines_split : forall b, lines b (split_nl b).
Proof.
  intros b. assert (X : forall ls, ls <> [] -> (forall l, In l ls -> ~ In nl l) -> lines (join_nl ls) ls).
  { induction ls as [|l ls IH]; intros N H; [congruence|]. destruct ls as [|m ls].
    - simpl. constructor. apply H. now left.
    - change (join_nl (l :: m :: ls)) with (l ++ [nl] ++ join_nl (m :: ls)). constructor; [apply H; now left|].
      apply IH; [discriminate|]. intros k I. apply H. now right. }
  specialize (X (split_nl b) (split_nl_ne b) (split_nl_no b)). now rewrite join_split in X.
Qed.
Lemma lines_join : forall b ls, lines b ls -> b = join_nl ls /\ ls <> [] /\ Forall (fun l => ~ In nl l) ls.
Proof.
  induction 1 as [l N|l b ls N L (-> & NE & F)]; [repeat split; auto; discriminate|].
  repeat split; auto; try discriminate. destruct ls; [congruence|]. reflexivity.
Qed.
Lemma cut_nl : forall a b x y, ~ In nl a -> ~ In nl b -> a ++ nl :: x = b ++ nl :: y -> a = b /\ x = y.
Proof.
  induction a as [|c a IH]; intros [|d b] x y A B E; simpl in *; inversion E; subst; auto; try tauto.
  destruct (IH b x y); try tauto. now subst.
Qed.
Lemma lines_one : forall b ls, lines b ls -> forall ls', lines b ls' -> ls = ls'.
Proof.
  induction 1 as [l N|l b ls N L IH]; intros ls' H; inversion H; subst; auto.
  - exfalso. apply N. apply in_or_app. right. now left.
  - exfalso. apply H0. apply in_or_app. right. now left.
  - simpl in *. destruct (cut_nl _ _ _ _ N H1 (eq_sym H0)) as [-> ->]. f_equal. auto.
Qed.

(** Lines, each with its newline. *)
Definition unlines (ls : list bytes) : bytes := concat (map (fun l => l ++ [nl]) ls).
Lemma unlines_app : forall a b, unlines (a ++ b) = unlines a ++ unlines b.
Proof. intros a b. unfold unlines. now rewrite map_app, concat_app. Qed.
Lemma unlines_inj : forall a b, Forall (fun l => ~ In nl l) a -> Forall (fun l => ~ In nl l) b -> unlines a = unlines b -> a = b.
Proof.
  unfold unlines. induction a as [|l a IH]; intros [|m b] A B E; simpl in E; auto.
  - destruct m; discriminate.
  - destruct l; discriminate.
  - inversion A; inversion B; subst. rewrite <- !app_assoc in E. simpl in E. apply cut_nl in E as [-> E]; auto. f_equal. auto.
Qed.
Lemma unlines_join : forall ls, ls <> [] -> unlines ls = join_nl ls ++ [nl].
Proof.
  induction ls as [|l ls IH]; intros N; [congruence|]. destruct ls as [|m ls]; [unfold unlines; simpl; now rewrite app_nil_r|].
  change (unlines (l :: m :: ls)) with ((l ++ [nl]) ++ unlines (m :: ls)). rewrite IH by discriminate.
  change (join_nl (l :: m :: ls)) with (l ++ nl :: join_nl (m :: ls)). now rewrite <- !app_assoc.
Qed.

(** * Slices *)

(** The array of the slice exists, with as many cells as the slice may use. *)
Definition placed (h : bheap) (s : bslice) : Prop :=
  b_len s <= b_cap s /\ (b_len s = 0 /\ b_cap s = 0 \/ b_arr s < length h /\ length (bcells h (b_arr s)) = b_cap s).
(** Only cells behind the slice, and new arrays, changed. *)
Definition frame (s : bslice) (h h' : bheap) : Prop :=
  length h <= length h' /\ forall a, a < length h ->
    length (bcells h' a) = length (bcells h a) /\
    (a <> b_arr s -> bcells h' a = bcells h a) /\ firstn (b_len s) (bcells h' a) = firstn (b_len s) (bcells h a).

Lemma frame_refl : forall s h, frame s h h.
Proof. intros s h. split; auto. Qed.
Lemma frame_trans : forall s h h1 h2, frame s h h1 -> frame s h1 h2 -> frame s h h2.
Proof.
  intros s h h1 h2 [L F] [L1 F1]. split; [lia|]. intros a A. destruct (F a A) as (F0 & F2 & F3).
  destruct (F1 a) as (G0 & G2 & G3); [lia|]. repeat split; [congruence| |congruence]. intro N. rewrite G2, F2; auto.
Qed.
Lemma frame_placed : forall s h h', frame s h h' -> placed h s -> placed h' s.
Proof.
  intros s h h' [L F] [P Q]. split; auto. destruct Q as [Q|[Q1 Q2]]; auto. right. destruct (F _ Q1) as (F0 & _). split; [lia|congruence].
Qed.
Lemma frame_read : forall s h h', frame s h h' -> placed h s -> bread h' s = bread h s.
Proof.
  intros s h h' [L F] [P Q]. unfold bread. destruct Q as [[Q _]|[Q1 Q2]]; [rewrite Q; reflexivity|]. now apply F.
Qed.

Lemma set_at_length : forall A i (x : A) l, length (set_at i x l) = length l.
Proof. induction i; destruct l; simpl; auto. Qed.
Lemma set_at_firstn : forall A i (x : A) l, firstn i (set_at i x l) = firstn i l.
Proof. induction i; destruct l; simpl; auto. f_equal. auto. Qed.
Lemma set_at_snoc : forall A i (x : A) l, i < length l -> firstn (S i) (set_at i x l) = firstn i l ++ [x].
Proof.
  induction i; destruct l; simpl; intros L; try lia; auto. f_equal. apply IHi. lia.
Qed.
Lemma set_at_nth : forall A i j (x d : A) l, nth j (set_at i x l) d = if (Nat.eqb i j && Nat.ltb j (length l))%bool then x else nth j l d.
Proof.
  induction i; destruct l as [|y l]; destruct j; simpl; auto; try (now rewrite andb_false_r).
  - rewrite IHi. reflexivity.
Qed.

Lemma bappend_ok : forall grow h s x s' h', placed h s -> bappend grow h s x = (s', h') ->
  placed h' s' /\ bread h' s' = bread h s ++ [x] /\ frame s h h' /\
  (forall h2, frame s' h' h2 -> frame s h h2).
Proof.
  intros grow h s x s' h' [P Q] E. unfold bappend in E. destruct (Nat.ltb (b_len s) (b_cap s)) eqn:C.
  - apply Nat.ltb_lt in C. destruct Q as [[_ Q]|[Q1 Q2]]; [lia|]. inversion E; subst; clear E.
    assert (CELL : forall a, bcells (set_at (b_arr s) (set_at (b_len s) x (bcells h (b_arr s))) h) a =
      if Nat.eqb (b_arr s) a then set_at (b_len s) x (bcells h (b_arr s)) else bcells h a).
    { intro a. unfold bcells at 1. rewrite set_at_nth. destruct (Nat.eqb (b_arr s) a) eqn:A; simpl; auto.
      apply Nat.eqb_eq in A. subst a. apply Nat.ltb_lt in Q1. now rewrite Q1. }
    assert (FR : frame s h (set_at (b_arr s) (set_at (b_len s) x (bcells h (b_arr s))) h)).
    { split; [now rewrite set_at_length|]. intros a A. rewrite CELL. destruct (Nat.eqb (b_arr s) a) eqn:B; auto.
      apply Nat.eqb_eq in B. subst a. rewrite set_at_length, set_at_firstn. repeat split; auto. congruence. }
    split; [|split; [|split]]; auto.
    + split; simpl; [lia|]. right. rewrite set_at_length, CELL, Nat.eqb_refl, set_at_length. auto.
    + unfold bread. simpl b_len. simpl b_arr. rewrite CELL, Nat.eqb_refl. apply set_at_snoc. lia.
    + intros h2 F. eapply frame_trans; [exact FR|]. destruct F as [L F]. split; auto. intros a A.
      destruct (F a A) as (F0 & F1 & F2). cbn [b_len b_arr] in *. repeat split; auto.
      assert (X := f_equal (firstn (b_len s)) F2). rewrite !firstn_firstn in X. now replace (Nat.min (b_len s) (S (b_len s))) with (b_len s) in X by lia.
  - apply Nat.ltb_ge in C. inversion E; subst; clear E.
    assert (LR : length (bread h s) = b_len s).
    { unfold bread. destruct Q as [[Q _]|[Q1 Q2]]; [now rewrite Q|]. apply firstn_length_le. lia. }
    set (c := Nat.max (grow (b_cap s)) (S (b_len s))).
    set (new := (bread h s ++ [x]) ++ repeat false (c - S (b_len s))).
    assert (OLD : forall a, a < length h -> bcells (h ++ [new]) a = bcells h a) by (intros a A; unfold bcells; apply app_nth1; auto).
    assert (NEW : bcells (h ++ [new]) (length h) = new) by (unfold bcells; rewrite app_nth2, Nat.sub_diag; auto).
    assert (FR : frame s h (h ++ [new])).
    { split; [rewrite app_length; lia|]. intros a A. rewrite OLD; auto. }
    split; [|split; [|split]]; auto.
    + split; [simpl; lia|]. right. simpl. rewrite NEW, app_length. simpl. split; [lia|].
      unfold new. rewrite !app_length, LR, repeat_length. simpl. unfold c. lia.
    + unfold bread at 1. simpl b_len. simpl b_arr. rewrite NEW. unfold new. rewrite firstn_app.
      assert (LL : length (bread h s ++ [x]) = S (b_len s)) by (rewrite app_length, LR; simpl; lia).
      rewrite LL, Nat.sub_diag, <- LL, firstn_all. simpl. now rewrite app_nil_r.
    + intros h2 [L F]. simpl in *. rewrite app_length in L, F. simpl in L, F. split; [lia|]. intros a A.
      destruct (F a) as (F0 & F1 & F2); [lia|]. assert (Y : bcells h2 a = bcells h a) by (rewrite F1 by lia; apply OLD; auto). rewrite Y. auto.
Qed.

(** * Printing without slices *)

Fixpoint pitem (f : gtree) (last : bool) (sp : list bool) : bytes :=
  print_text (gtext f) sp last ++
  match f with
  | GTree _ ts =>
      (fix loop (ts : list gtree) : bytes :=
         match ts with
         | [] => []
         | t :: ts' => pitem t (match ts' with [] => true | _ => false end) (sp ++ [last]) ++ loop ts'
         end) ts
  end.
Fixpoint pitems (ts : list gtree) (sp : list bool) : bytes :=
  match ts with
  | [] => []
  | t :: ts' => pitem t (match ts' with [] => true | _ => false end) sp ++ pitems ts' sp
  end.
Lemma pitem_eq : forall x ts last sp, pitem (GTree x ts) last sp = print_text x sp last ++ pitems ts (sp ++ [last]).
Proof.
  intros x ts last sp. simpl. f_equal. induction ts as [|t ts IH]; auto. simpl. f_equal. exact IH.
Qed.
Lemma print_item_eq : forall grow x ts last s h, print_item grow (GTree x ts) last s h =
  match ts with
  | [] => (print_text x (bread h s) last, h)
  | _ => let (c, h1) := bappend grow h s last in
         let (rest, h2) := print_items grow ts c h1 in (print_text x (bread h s) last ++ rest, h2)
  end.
Proof.
  intros. destruct ts as [|t ts]; auto. simpl. destruct (bappend grow h s last) as [c h1].
  assert (X : forall ts h, (fix loop (ts : list gtree) (h : bheap) : bytes * bheap :=
       match ts with
       | [] => ([], h)
       | t :: ts' => let (a, h) := print_item grow t (match ts' with [] => true | _ => false end) c h in
                     let (b, h) := loop ts' h in (a ++ b, h)
       end) ts h = print_items grow ts c h).
  { clear. induction ts as [|t ts IH]; intros h; auto. simpl. destruct (print_item grow t _ c h). now rewrite IH. }
  destruct (print_item grow t _ c h1) as [a h2]. rewrite X. reflexivity.
Qed.

Definition item_ok (grow : nat -> nat) (f : gtree) : Prop := forall last s h o h', placed h s ->
  print_item grow f last s h = (o, h') -> o = pitem f last (bread h s) /\ frame s h h'.
Lemma items_ok : forall grow ts, Forall (item_ok grow) ts -> forall s h o h', placed h s ->
  print_items grow ts s h = (o, h') -> o = pitems ts (bread h s) /\ frame s h h'.
Proof.
  intros grow ts F. induction F as [|t ts T F IH]; intros s h o h' P E; simpl in E.
  - inversion E; subst. split; auto using frame_refl.
  - destruct (print_item grow t _ s h) as [a h1] eqn:E1. destruct (print_items grow ts s h1) as [b h2] eqn:E2.
    inversion E; subst. apply T in E1 as [-> F1]; auto. apply IH in E2 as [-> F2]; [|eapply frame_placed; eauto].
    rewrite (frame_read _ _ _ F1 P). split; eauto using frame_trans.
Qed.
Lemma item_all : forall grow f, item_ok grow f.
Proof.
  intros grow f. induction f as [x ts F] using gtree_ind'. intros last s h o h' P E. rewrite print_item_eq in E. rewrite pitem_eq.
  destruct ts as [|t ts].
  - inversion E; subst. simpl. rewrite app_nil_r. split; auto using frame_refl.
  - destruct (bappend grow h s last) as [c h1] eqn:A. destruct (print_items grow (t :: ts) c h1) as [rest h2] eqn:R.
    inversion E; subst. destruct (bappend_ok _ _ _ _ _ _ P A) as (P1 & B & F1 & K).
    apply (items_ok grow (t :: ts) F) in R as [-> FR]; auto. rewrite B. split; auto.
Qed.

(** * Blocks *)

Fixpoint drawn (t : gtree) : list bytes :=
  match t with GTree x ts => split_nl x ++ hang_all (map drawn ts) end.

Definition pre (sp : list bool) : bytes := concat (map (fun s : bool => if s then emptySpace else continueItem) sp).
Definition mark (last : bool) : bytes := if last then lastItem else middleItem.
Definition rest_mark (last : bool) : bytes := if last then emptySpace else continueItem.
Lemma print_text_block : forall x sp last,
  print_text x sp last = unlines (map (app (pre sp)) (hang (mark last) (rest_mark last) (split_nl x))).
Proof.
  intros x sp last. unfold print_text. destruct (split_nl x) as [|l ls]; auto. unfold unlines, pre, mark, rest_mark. simpl.
  rewrite <- !app_assoc. do 4 f_equal. rewrite !map_map. f_equal. apply map_ext. intros a. now rewrite <- !app_assoc.
Qed.
Lemma hang_app : forall a b l m, l <> [] -> hang a b (l ++ m) = hang a b l ++ map (app b) m.
Proof. intros a b [|x l] m N; [congruence|]. simpl. now rewrite map_app. Qed.
Lemma pre_snoc : forall sp last, pre (sp ++ [last]) = pre sp ++ rest_mark last.
Proof. intros. unfold pre. rewrite map_app, concat_app. simpl. now rewrite app_nil_r. Qed.
Lemma hang_all_cons : forall b l, hang_all (b :: l) =
  hang (mark (match l with [] => true | _ => false end)) (rest_mark (match l with [] => true | _ => false end)) b ++ hang_all l.
Proof. intros b [|c l]; simpl; [now rewrite app_nil_r|reflexivity]. Qed.

Definition item_block (f : gtree) : Prop := forall last sp,
  pitem f last sp = unlines (map (app (pre sp)) (hang (mark last) (rest_mark last) (drawn f))).
Lemma items_block : forall ts, Forall item_block ts -> forall sp, pitems ts sp = unlines (map (app (pre sp)) (hang_all (map drawn ts))).
Proof.
  induction 1 as [|t ts T F IH]; intros sp; auto. change (map drawn (t :: ts)) with (drawn t :: map drawn ts). rewrite hang_all_cons, map_app, unlines_app. simpl pitems. rewrite T, IH.
  destruct ts; reflexivity.
Qed.
Lemma item_blocks : forall f, item_block f.
Proof.
  intros f. induction f as [x ts F] using gtree_ind'. intros last sp. rewrite pitem_eq, print_text_block, (items_block ts F).
  simpl drawn. rewrite hang_app, map_app, unlines_app by apply split_nl_ne. f_equal. f_equal. rewrite map_map, pre_snoc.
  apply map_ext. intros a. now rewrite <- app_assoc.
Qed.

Lemma drawn_drawing : forall t, drawing t (drawn t).
Proof.
  intros t. induction t as [x ts F] using gtree_ind'. simpl. constructor; [apply lines_split|].
  induction F; simpl; constructor; auto.
Qed.
Lemma drawing_drawn : forall t ls, drawing t ls -> ls = drawn t.
Proof.
  intros t. induction t as [x ts F] using gtree_ind'. intros ls H. inversion H as [x0 ts0 l bl L D]; subst. simpl.
  rewrite (lines_one _ _ L _ (lines_split x)). do 2 f_equal.
  clear - F D. revert bl D. induction F as [|t ts T F IH]; intros bl D; inversion D; subst; auto. simpl. f_equal; auto.
Qed.

Lemma print_drawn : forall grow t, print grow t = unlines (drawn t).
Proof.
  intros grow [x ts]. unfold print. simpl gtext. simpl gitems. destruct (print_items grow ts (mkBslice 0 0 0) []) as [o h'] eqn:E.
  assert (P : placed [] (mkBslice 0 0 0)) by (split; auto).
  apply (items_ok grow ts) in E as [-> _]; auto; [|apply Forall_forall; auto using item_all].
  simpl fst. rewrite items_block by (apply Forall_forall; auto using item_blocks). simpl drawn. rewrite unlines_app.
  rewrite (unlines_join (split_nl x)) by apply split_nl_ne. rewrite join_split, <- app_assoc. f_equal. f_equal. unfold bread, bcells, pre. simpl.
  f_equal. apply map_id.
Qed.

(** C69: the print is the drawing, line by line. *)
Theorem print_draws : forall grow t ls, drawing t ls -> print grow t = concat (map (fun l => l ++ [nl]) ls).
Proof. intros grow t ls D. apply drawing_drawn in D. subst. apply print_drawn. Qed.
Theorem drawing_exists : forall t, exists ls, drawing t ls.
Proof. eauto using drawn_drawing. Qed.

(** * Reading a drawing back *)

Definition opening (l : bytes) : Prop := starts (bs "├── ") l \/ starts (bs "└── ") l.
Lemma mark_opening : forall last l, opening (mark last ++ l).
Proof. intros [] l; [right|left]; exists l; reflexivity. Qed.
Lemma rest_not_opening : forall last l, ~ opening (rest_mark last ++ l).
Proof. intros [] l [[r E]|[r E]]; discriminate E. Qed.
Lemma split_opening : forall a b x y, Forall (fun l => ~ opening l) a -> Forall (fun l => ~ opening l) b ->
  (x = [] \/ exists l x', x = l :: x' /\ opening l) -> (y = [] \/ exists l y', y = l :: y' /\ opening l) ->
  a ++ x = b ++ y -> a = b /\ x = y.
Proof.
  induction a as [|l a IH]; intros b x y A B X Y E.
  - destruct b as [|m b]; auto. simpl in E. subst x. destruct X as [X|(k & x' & X & O)]; [discriminate|]. inversion X; subst.
    inversion B; subst. tauto.
  - destruct b as [|m b].
    + simpl in E. subst y. destruct Y as [Y|(k & x' & Y & O)]; [discriminate|]. inversion Y; subst. inversion A; subst. tauto.
    + simpl in E. inversion E; subst. inversion A; inversion B; subst. destruct (IH b x y) as [-> ->]; auto.
Qed.
Lemma hang_all_opens : forall bl, Forall (fun b => b <> []) bl -> hang_all bl = [] \/ exists l x', hang_all bl = l :: x' /\ opening l.
Proof.
  intros [|b bl] F; auto. right. rewrite hang_all_cons. inversion F; subst. destruct b as [|l b]; [congruence|]. simpl.
  do 2 eexists. split; [reflexivity|]. apply mark_opening.
Qed.
Lemma map_app_inj : forall (p : bytes) a b, map (app p) a = map (app p) b -> a = b.
Proof. intros p. induction a as [|x a IH]; intros [|y b] E; simpl in E; inversion E; auto. apply app_inv_head in H0. f_equal; auto. Qed.
Lemma hang_all_inj : forall a b, Forall (fun b => b <> []) a -> Forall (fun b => b <> []) b -> hang_all a = hang_all b -> a = b.
Proof.
  induction a as [|x a IH]; intros [|y b] A B E; auto.
  - rewrite hang_all_cons in E. inversion B; subst. destruct y; [congruence|]. discriminate E.
  - rewrite hang_all_cons in E. inversion A; subst. destruct x; [congruence|]. discriminate E.
  - rewrite !hang_all_cons in E. inversion A as [|? ? NX FA]; inversion B as [|? ? NY FB]; subst.
    destruct x as [|l x]; [congruence|]. destruct y as [|m y]; [congruence|]. simpl in E. injection E as E1 E2.
    assert (Q : (match a with [] => true | _ => false end) = (match b with [] => true | _ => false end) /\ l = m).
    { destruct a, b; simpl in E1; try discriminate E1; split; auto; repeat (injection E1 as E1); auto. }
    destruct Q as [Q ->]. rewrite Q in E2. apply split_opening in E2 as [E2 E3]; auto using hang_all_opens.
    + apply map_app_inj in E2. subst. f_equal. auto.
    + apply Forall_forall. intros k I. apply in_map_iff in I as (k' & <- & _). apply rest_not_opening.
    + apply Forall_forall. intros k I. apply in_map_iff in I as (k' & <- & _). apply rest_not_opening.
Qed.
Lemma drawn_ne : forall t, drawn t <> [].
Proof. intros [x ts] E. simpl in E. apply app_eq_nil in E as [E _]. now apply split_nl_ne in E. Qed.

Lemma tidy_kids : forall x ts, tidy (GTree x ts) -> Forall tidy ts.
Proof. intros x ts [_ H]. induction ts as [|t ts IH]; constructor; [apply H|apply IH, H]. Qed.

Lemma drawn_inj : forall t u, tidy t -> tidy u -> drawn t = drawn u -> t = u.
Proof.
  intros t. induction t as [x ts F] using gtree_ind'. intros [y us] T U E. simpl in E.
  pose proof (split_nl_ne x) as NX. pose proof (split_nl_ne y) as NY.
  pose proof (lines_split x) as LX. pose proof (lines_split y) as LY.
  destruct (split_nl x) as [|l ls] eqn:SX; [congruence|]. destruct (split_nl y) as [|m ms] eqn:SY; [congruence|]. simpl in E. injection E as -> E.
  assert (NB : forall ts, Forall (fun b => b <> []) (map drawn ts)).
  { intros ts'. apply Forall_forall. intros b I. apply in_map_iff in I as (k & <- & _). apply drawn_ne. }
  apply split_opening in E as [-> E]; auto using hang_all_opens.
  - apply hang_all_inj in E; auto. assert (XY : x = y).
    { apply lines_join in LX as (-> & _). apply lines_join in LY as (-> & _). reflexivity. }
    subst y. f_equal. apply tidy_kids in T. apply tidy_kids in U. clear - F T U E.
    revert us U E. induction F as [|t ts H F IH]; intros [|u us] U E; simpl in E; try discriminate E; auto.
    injection E as E1 E2. inversion T; inversion U; subst. f_equal; auto.
  - destruct T as [T _]. eapply Forall_impl; [|exact (T _ _ LX)]. intros k [K1 K2] [O|O]; auto.
  - destruct U as [U _]. eapply Forall_impl; [|exact (U _ _ LY)]. intros k [K1 K2] [O|O]; auto.
Qed.

Lemma drawn_no_nl : forall t, Forall (fun l => ~ In nl l) (drawn t).
Proof.
  assert (HB : forall a b bl, ~ In nl a -> ~ In nl b -> Forall (fun l => ~ In nl l) bl -> Forall (fun l => ~ In nl l) (hang a b bl)).
  { intros a b [|l bl] A B F; auto. inversion F; subst. simpl. constructor; [intro I; apply in_app_or in I; tauto|].
    apply Forall_forall. intros k I. apply in_map_iff in I as (k' & <- & I). rewrite Forall_forall in H2. specialize (H2 _ I).
    intro J. apply in_app_or in J. tauto. }
  intros t. induction t as [x ts F] using gtree_ind'. simpl. apply Forall_app. split; [apply Forall_forall; apply split_nl_no|].
  induction F as [|t ts T F IH]; [constructor|]. change (map drawn (t :: ts)) with (drawn t :: map drawn ts). rewrite hang_all_cons. apply Forall_app. split; [|exact IH].
  apply HB; auto; destruct (map drawn ts); simpl; intuition discriminate.
Qed.

(** C69: tidy trees are told apart by their prints. *)
Theorem print_injective : forall grow grow' t u, tidy t -> tidy u -> print grow t = print grow' u -> t = u.
Proof.
  intros grow grow' t u T U E. rewrite !print_drawn in E. apply unlines_inj in E; auto using drawn_no_nl. now apply drawn_inj.
Qed.
Theorem print_is_drawing : forall t, exists ls, (forall ls', drawing t ls' <-> ls' = ls) /\
  forall grow, print grow t = concat (map (fun l => l ++ [nl]) ls).
Proof.
  intros t. exists (drawn t). split; [|intro grow; apply print_drawn]. intros ls'. split; [apply drawing_drawn|].
  intros ->. apply drawn_drawing.
Qed.
