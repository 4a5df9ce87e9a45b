(** Proofs about the printed forms of parse trees. *)
From Verif Require Import Base Scanner Syntax Resolve Codegen Treeview TreeviewProofs NodeString NodeStringSpec NodeStringProofs TermString ScannerSpec.
From Verif Require Import Ast CompileProofs.
From Verif Require Import Compile Parse PegSpec DerivSpec FlowSpec FlowProofs Engine CutSpec DrawProofs ApiProofs TreeString TreeStringSpec.
Local Open Scope list_scope.

Lemma leaf_of_slice : forall s x, leaf_of s x <-> sslice s = Some x.
Proof.
  intros s x. unfold leaf_of, shows, sstring. destruct (src s) eqn:E; split; intros H; auto; try (destruct H; congruence).
  - split; auto. discriminate.
  - unfold sslice in H. rewrite E in H. discriminate.
Qed.

Lemma fold_snoc : forall A B (f : A -> B) l acc, fold_left (fun ys x => ys ++ [f x]) l acc = acc ++ map f l.
Proof. induction l as [|x l IH]; intros acc; cbn [fold_left map]; [now rewrite app_nil_r|]. rewrite IH, <- app_assoc. auto. Qed.
Lemma normalize_same : forall t, tree_normalize t = t.
Proof.
  induction t as [tag x cs IH|s|] using tree_ind'; auto. cbn [tree_normalize]. rewrite fold_snoc. cbn [app]. f_equal.
  induction IH as [|c cs H _ IH]; auto. cbn [map]. f_equal; auto.
Qed.

(** Where a text without marks ends. *)
Definition stops (r : bytes) : Prop := match r with [] => True | c :: _ => In c marks end.
Lemma split_marks : forall a b x y, unmarked a -> unmarked b -> stops x -> stops y -> a ++ x = b ++ y -> a = b /\ x = y.
Proof.
  induction a as [|c a IH]; intros [|d b] x y A B X Y E; cbn [app] in E; auto.
  - subst x. exfalso. apply (B d); [left; auto|exact X].
  - subst y. exfalso. apply (A c); [left; auto|exact Y].
  - injection E as -> E. destruct (IH b x y) as [-> ->]; auto.
    + intros e I. apply A. right; auto.
    + intros e I. apply B. right; auto.
Qed.

Definition ends (r : bytes) : Prop := match r with [] => True | c :: _ => c = ","%char \/ c = "]"%char end.
Lemma ends_stops : forall r, ends r -> stops r.
Proof. intros [|c r] H; auto. cbn in *. destruct H; subst; auto. Qed.

Lemma digits_unmarked : forall x, forallb is_digit x = true -> unmarked x.
Proof.
  intros x D c I M. rewrite forallb_forall in D. apply D in I. cbn in M. destruct M as [<-|[<-|[<-|[<-|[]]]]]; discriminate.
Qed.
Lemma dec_unmarked : forall n, unmarked (bs (dec n)).
Proof. intros n. apply digits_unmarked. apply dec_digits. Qed.
Lemma dec_pair : forall n m, bs (dec n) = bs (dec m) -> n = m.
Proof. exact dec_inj. Qed.

Section Faithful.
  Variable quote : bytes -> bytes.
  Variable quote_rune : nat -> bytes.
  Variable v : verb.
  Notation fmt := (tree_format quote quote_rune v).
  Definition text_of : bytes -> Prop := match v with ByQ => fun _ => True | _ => good_text end.
  Hypothesis HQ : v = ByQ -> quotes quote /\ rune_quotes quote_rune.

  (** What a node writes after its tag. *)
  Definition mark_extra (x : extra) (e : bytes) : bytes := match x with XNone => [] | _ => bs "║" ++ e end.

  Lemma mark_bytes : bs "║" = ["226"; "149"; "145"]%char.
  Proof. reflexivity. Qed.

  Lemma unmarked_app : forall a b, unmarked a -> unmarked b -> unmarked (a ++ b).
  Proof. intros a b A B c I. apply in_app_or in I. destruct I; auto. Qed.
  Lemma assoc_unmarked : forall a, unmarked (assoc_string a).
  Proof. intros a c I M. destruct a; cbn in I, M; intuition (subst; discriminate). Qed.
  Lemma choice_unmarked : forall n, unmarked (bs "%!s(parser.Choice=" ++ bs (dec n) ++ bs ")").
  Proof.
    intros n. apply unmarked_app; [|apply unmarked_app; [apply dec_unmarked|]];
      intros c I M; cbn in I, M; intuition (subst; discriminate).
  Qed.
  Lemma assoc_head : forall a, exists c r, assoc_string a = c :: r /\ is_digit c = false /\ c <> "%"%char.
  Proof. intros []; cbn; do 2 eexists; split; eauto; split; auto; discriminate. Qed.
  Lemma assoc_string_inj : forall a b, assoc_string a = assoc_string b -> a = b.
  Proof. intros [] []; intros E; auto; discriminate. Qed.

  (** The extra and what follows it. *)
  Lemma extra_split : forall x y e e' r r', (forall b, x <> XBranch b) -> (forall b, y <> XBranch b) ->
    (forall i, x = XChoice i -> (Z.of_nat i < 55296)%Z) -> (forall i, y = XChoice i -> (Z.of_nat i < 55296)%Z) ->
    extra_format quote quote_rune v x = Some e -> extra_format quote quote_rune v y = Some e' ->
    mark_extra x e ++ bs "[" ++ r = mark_extra y e' ++ bs "[" ++ r' -> x = y /\ r = r'.
  Proof.
    intros x y e e' r r' BX BY IX IY EX EY H.
    assert (AP : forall (a b : bytes), bs "[" ++ a = bs "[" ++ b -> a = b) by (intros a b Q; injection Q; auto).
    assert (ST : forall (a : bytes), stops (bs "[" ++ a)) by (intros a; cbn; auto).
    assert (M : forall (a b p q : bytes), (bs "║" ++ a) ++ p = (bs "║" ++ b) ++ q -> a ++ p = b ++ q)
      by (intros a b p q Q; rewrite <- !app_assoc in Q; rewrite mark_bytes in Q; injection Q; auto).
    destruct x as [|n|a|b]; [| | |exfalso; eapply BX; eauto]; (destruct y as [|m|a'|b']; [| | |exfalso; eapply BY; eauto]);
      cbn [mark_extra] in H; cbn [extra_format] in EX, EY.
    - split; auto.
    - exfalso. rewrite mark_bytes in H. discriminate H.
    - exfalso. rewrite mark_bytes in H. discriminate H.
    - exfalso. rewrite mark_bytes in H. discriminate H.
    - apply M in H. injection EX as <-. injection EY as <-. destruct v.
      + apply split_marks in H as [H H']; auto using dec_unmarked. apply dec_pair in H. subst. split; [auto|apply AP; exact H'].
      + apply split_marks in H as [H H']; [|apply choice_unmarked|apply choice_unmarked|apply ST|apply ST]. apply (app_inv_head (bs "%!s(parser.Choice=")) in H. apply app_inv_tail in H. apply dec_pair in H. subst. split; [auto|apply AP; exact H'].
      + destruct (HQ eq_refl) as [_ [_ Q]]. apply Q in H as [-> H]; auto.
    - exfalso. apply M in H. injection EX as <-. injection EY as <-. destruct (assoc_head a') as (c & w & A1 & A2 & A3). destruct v; cbn [stringer] in H.
      + apply split_marks in H as [H _]; auto using dec_unmarked, assoc_unmarked. destruct (dec_head n) as (d & w' & D1 & D2 & _). rewrite D1, A1 in H. injection H as -> _. congruence.
      + apply split_marks in H as [H _]; [|first [apply choice_unmarked|apply assoc_unmarked]|first [apply choice_unmarked|apply assoc_unmarked]|apply ST|apply ST]. rewrite A1 in H. injection H as H _. congruence.
      + destruct (HQ eq_refl) as [[Q _] [Q' _]]. destruct (Q (assoc_string a')) as [w1 E1]. destruct (Q' n) as [w2 E2]. rewrite E1, E2 in H. discriminate H.
    - exfalso. rewrite mark_bytes in H. discriminate H.
    - exfalso. apply M in H. injection EX as <-. injection EY as <-. destruct (assoc_head a) as (c & w & A1 & A2 & A3). destruct v; cbn [stringer] in H.
      + apply split_marks in H as [H _]; auto using dec_unmarked, assoc_unmarked. destruct (dec_head m) as (d & w' & D1 & D2 & _). rewrite D1, A1 in H. injection H as -> _. congruence.
      + apply split_marks in H as [H _]; [|first [apply choice_unmarked|apply assoc_unmarked]|first [apply choice_unmarked|apply assoc_unmarked]|apply ST|apply ST]. rewrite A1 in H. injection H as H _. congruence.
      + destruct (HQ eq_refl) as [[Q _] [Q' _]]. destruct (Q (assoc_string a)) as [w1 E1]. destruct (Q' m) as [w2 E2]. rewrite E1, E2 in H. discriminate H.
    - apply M in H. injection EX as <-. injection EY as <-. destruct v; cbn [stringer] in H.
      + apply split_marks in H as [H H']; auto using assoc_unmarked. apply assoc_string_inj in H. subst. split; [auto|apply AP; exact H'].
      + apply split_marks in H as [H H']; auto using assoc_unmarked. apply assoc_string_inj in H. subst. split; [auto|apply AP; exact H'].
      + destruct (HQ eq_refl) as [[_ [_ Q]] _]. apply Q in H as [H H']. apply assoc_string_inj in H. subst. split; [auto|apply AP; exact H'].
  Qed.

  (** What a node writes. *)
  Lemma node_format : forall tag x cs y, fmt (Node tag x cs) = Some y ->
    exists e body, extra_format quote quote_rune v x = Some e /\ children_format true (map fmt cs) = Some body /\
      y = bs tag ++ mark_extra x e ++ bs "[" ++ body ++ bs "]".
  Proof.
    intros tag x cs y H. cbn [tree_format] in H. destruct (extra_format quote quote_rune v x) as [e|]; [|discriminate].
    destruct (children_format true (map fmt cs)) as [body|]; [|discriminate]. injection H as <-. exists e, body. auto.
  Qed.

  Lemma node_stops : forall x e r, stops (mark_extra x e ++ bs "[" ++ r).
  Proof. intros [] e r; cbn; auto 10. Qed.

  (** A printed tree starts with something else than a closing bracket. *)
  Lemma head_not_close : forall t x, plain_tree text_of t -> fmt t = Some x -> exists c r, x = c :: r /\ c <> "]"%char.
  Proof.
    intros t x P F. destruct P as [tag ex cs G NB NC _|s L|].
    - apply node_format in F as (e & body & _ & _ & ->). destruct (bs tag) as [|c r] eqn:T.
      + destruct ex; cbn [mark_extra app]; try rewrite mark_bytes; cbn; do 2 eexists; split; eauto; discriminate.
      + cbn [app]. do 2 eexists. split; eauto. intros ->. destruct G as [G _]. rewrite T in G. apply (G "]"%char); cbn; auto.
    - cbn [tree_format] in F. unfold scanner_format in F. destruct (sslice s) as [y|] eqn:S; [|discriminate]. injection F as <-.
      assert (T : text_of y) by (apply L; apply leaf_of_slice; auto). unfold text_of in T. unfold stringer. destruct v.
      + destruct T as (N & U & _). destruct y as [|c y]; [congruence|]. do 2 eexists. split; eauto. intros ->. apply (U "]"%char); cbn; auto.
      + destruct T as (N & U & _). destruct y as [|c y]; [congruence|]. do 2 eexists. split; eauto. intros ->. apply (U "]"%char); cbn; auto.
      + destruct (HQ eq_refl) as [[Q _] _]. destruct (Q y) as [r E]. rewrite E. do 2 eexists. split; eauto. discriminate.
    - cbn in F. injection F as <-. do 2 eexists. split; eauto. discriminate.
  Qed.

  Definition tells (t : tree) : Prop := forall t' x x' r r', plain_tree text_of t' -> fmt t = Some x -> fmt t' = Some x' ->
    ends r -> ends r' -> x ++ r = x' ++ r' -> look_alike t t' /\ r = r'.

  Lemma children_tell : forall cs, Forall tells cs -> Forall (plain_tree text_of) cs ->
    forall ds first body body' r r', Forall (plain_tree text_of) ds ->
    children_format first (map fmt cs) = Some body -> children_format first (map fmt ds) = Some body' ->
    body ++ bs "]" ++ r = body' ++ bs "]" ++ r' -> Forall2 look_alike cs ds /\ r = r'.
  Proof.
    assert (NC : forall d, plain_tree text_of d -> forall y rest r first, fmt d = Some y ->
      (if first : bool then ([] : bytes) else bs ", ") ++ y ++ rest <> bs "]" ++ r).
    { intros d D y rest r first F E. destruct (head_not_close _ _ D F) as (c & w & -> & N). destruct first; cbn in E; injection E as E; congruence. }
    induction cs as [|c cs IH]; intros T PC ds first body body' r r' PD B B' E.
    - cbn in B. injection B as <-. cbn [app] in E. destruct ds as [|d ds].
      + cbn in B'. injection B' as <-. cbn in E. injection E as E. auto.
      + exfalso. cbn [map children_format] in B'. inversion PD; subst. destruct (fmt d) as [y|] eqn:F; [|discriminate].
        destruct (children_format false (map fmt ds)) as [w|]; [|discriminate]. injection B' as <-. rewrite <- !app_assoc in E. symmetry in E. eapply NC; eauto.
    - inversion T; subst. inversion PC; subst. cbn [map children_format] in B. destruct (fmt c) as [y|] eqn:F; [|discriminate].
      destruct (children_format false (map fmt cs)) as [w|] eqn:C; [|discriminate]. injection B as <-. destruct ds as [|d ds].
      + exfalso. cbn in B'. injection B' as <-. rewrite <- !app_assoc in E. eapply NC; eauto.
      + inversion PD; subst. cbn [map children_format] in B'. destruct (fmt d) as [y'|] eqn:F'; [|discriminate].
        destruct (children_format false (map fmt ds)) as [w'|] eqn:C'; [|discriminate]. injection B' as <-. rewrite <- !app_assoc in E. apply app_inv_head in E.
        assert (EN : forall (l : list tree) z q, children_format false (map fmt l) = Some z -> ends (z ++ bs "]" ++ q)).
        { intros [|a l] z q Z; cbn in Z; [injection Z as <-; cbn; auto|]. destruct (fmt a); [|discriminate]. destruct (children_format false (map fmt l)); [|discriminate].
          injection Z as <-. cbn. auto. }
        match goal with H : tells c |- _ => destruct (H d y y' (w ++ bs "]" ++ r) (w' ++ bs "]" ++ r')) as [LA E']; eauto end.
        destruct (IH ltac:(assumption) ltac:(assumption) ds false w w' r r') as [LL ->]; auto.
  Qed.

  Lemma all_tell : forall t, plain_tree text_of t -> tells t.
  Proof.
    induction t as [tag x cs IH|s|] using tree_ind'; intros P.
    - inversion P as [tag0 x0 cs0 G NB NC PC| |]; subst. intros t' y y' r r' P' F F' ER ER' E.
      apply node_format in F as (e & body & EX & B & ->). destruct P' as [tag' x' ds G' NB' NC' PD|s L|].
      + apply node_format in F' as (e' & body' & EX' & B' & ->). rewrite <- !app_assoc in E.
        apply split_marks in E as [T E]; [|apply G|apply G'|apply node_stops|apply node_stops].
        apply extra_split in E as [-> E]; auto.
        destruct (children_tell cs) with (ds := ds) (first := true) (body := body) (body' := body') (r := r) (r' := r') as [LL ->]; auto.
        { rewrite Forall_forall in *. auto. }
        split; auto. assert (tag = tag') as -> by (rewrite <- (sb_bs tag), <- (sb_bs tag'); congruence). constructor; auto.
      + exfalso. cbn [tree_format] in F'. unfold scanner_format in F'. destruct (sslice s) as [z|] eqn:S; [|discriminate]. injection F' as <-.
        assert (T : text_of z) by (apply L; apply leaf_of_slice; auto). rewrite <- !app_assoc in E. unfold text_of in T. unfold stringer in E.
        assert (D : good_text z -> bs tag ++ mark_extra x e ++ bs "[" ++ body ++ bs "]" ++ r = z ++ r' -> False).
        { intros (N & U & _) E'. apply split_marks in E' as [_ E']; [|apply G|exact U|apply node_stops|apply ends_stops; auto].
          destruct r' as [|c r']; [destruct x; discriminate E'|]. destruct ER' as [-> | ->]; destruct x; discriminate E'. }
        destruct v; eauto. destruct (HQ eq_refl) as [[Q _] _]. destruct (Q z) as [w EQ]. rewrite EQ in E. destruct (bs tag) as [|c tg] eqn:TG.
        * destruct x; discriminate E.
        * cbn [app] in E. injection E as -> _. apply (proj2 (proj2 G)). rewrite TG. left; auto.
      + exfalso. cbn in F'. injection F' as <-. rewrite <- !app_assoc in E. destruct (bs tag) as [|c tg] eqn:TG.
        * destruct x; discriminate E.
        * cbn [app] in E. injection E as -> _. apply (proj1 (proj2 G)). rewrite TG. left; auto.
    - inversion P as [|s0 L|]; subst. intros t' y y' r r' P' F F' ER ER' E.
      cbn [tree_format] in F. unfold scanner_format in F. destruct (sslice s) as [z|] eqn:S; [|discriminate]. injection F as <-.
      assert (T : text_of z) by (apply L; apply leaf_of_slice; auto). unfold text_of in T. unfold stringer in E.
      destruct P' as [tag x ds G NB' NC' PD|s' L'|].
      + exfalso. apply node_format in F' as (e & body & EX & B & ->). rewrite <- !app_assoc in E.
        assert (D : good_text z -> z ++ r = bs tag ++ mark_extra x e ++ bs "[" ++ body ++ bs "]" ++ r' -> False).
        { intros (N & U & _) E'. apply split_marks in E' as [_ E']; [|exact U|apply G|apply ends_stops; auto|apply node_stops].
          destruct r as [|c r]; [destruct x; discriminate E'|]. destruct ER as [-> | ->]; destruct x; discriminate E'. }
        destruct v; eauto. destruct (HQ eq_refl) as [[Q _] _]. destruct (Q z) as [w EQ]. rewrite EQ in E. destruct (bs tag) as [|c tg] eqn:TG.
        * destruct x; discriminate E.
        * cbn [app] in E. injection E as <- _. apply (proj2 (proj2 G)). rewrite TG. left; auto.
      + cbn [tree_format] in F'. unfold scanner_format in F'. destruct (sslice s') as [z'|] eqn:S'; [|discriminate]. injection F' as <-.
        assert (T' : text_of z') by (apply L'; apply leaf_of_slice; auto). unfold text_of in T'. unfold stringer in E.
        assert (Z : z = z' /\ r = r').
        { destruct v; [apply split_marks; auto; try apply T; try apply T'; apply ends_stops; auto| |apply (proj1 (HQ eq_refl)); auto].
          apply split_marks; auto; try apply T; try apply T'; apply ends_stops; auto. }
        destruct Z as [-> ->]. split; auto. apply la_leaf with z'; apply leaf_of_slice; auto.
      + exfalso. cbn in F'. injection F' as <-.
        assert (D : good_text z -> z ++ r = bs "{}" ++ r' -> False).
        { intros (N & U & NB) E'. destruct z as [|c z]; [congruence|]. injection E' as -> _. apply NB. left; auto. }
        destruct v; eauto. destruct (HQ eq_refl) as [[Q _] _]. destruct (Q z) as [w EQ]. rewrite EQ in E. discriminate E.
    - intros t' y y' r r' P' F F' ER ER' E. cbn in F. injection F as <-. destruct P' as [tag x ds G NB' NC' PD|s' L'|].
      + exfalso. apply node_format in F' as (e & body & EX & B & ->). rewrite <- !app_assoc in E. destruct (bs tag) as [|c tg] eqn:TG.
        * destruct x; discriminate E.
        * cbn [app] in E. injection E as <- _. apply (proj1 (proj2 G)). rewrite TG. left; auto.
      + exfalso. cbn [tree_format] in F'. unfold scanner_format in F'. destruct (sslice s') as [z|] eqn:S'; [|discriminate]. injection F' as <-.
        assert (T : text_of z) by (apply L'; apply leaf_of_slice; auto). unfold text_of in T. unfold stringer in E.
        assert (D : good_text z -> bs "{}" ++ r = z ++ r' -> False).
        { intros (N & U & NB) E'. destruct z as [|c z]; [congruence|]. injection E' as <- _. apply NB. left; auto. }
        destruct v; eauto. destruct (HQ eq_refl) as [[Q _] _]. destruct (Q z) as [w EQ]. rewrite EQ in E. discriminate E.
      + cbn in F'. injection F' as <-. apply app_inv_head in E. split; auto. constructor.
  Qed.
End Faithful.

Theorem quoted_tells : forall quote quote_rune, quotes quote -> rune_quotes quote_rune -> forall t t' x,
  plain_tree (fun _ => True) t -> plain_tree (fun _ => True) t' ->
  tree_format quote quote_rune ByQ t = Some x -> tree_format quote quote_rune ByQ t' = Some x -> look_alike t t'.
Proof.
  intros q qr Q QR t t' x P P' F F'. refine (proj1 (all_tell q qr ByQ (fun _ => conj Q QR) t P t' x x [] [] P' F F' Logic.I Logic.I eq_refl)).
Qed.
Theorem plain_tells : forall quote quote_rune v, v <> ByQ -> forall t t' x, plain_tree good_text t -> plain_tree good_text t' ->
  tree_format quote quote_rune v t = Some x -> tree_format quote quote_rune v t' = Some x -> look_alike t t'.
Proof.
  intros q qr v N t t' x P P' F F'.
  assert (TX : text_of v = good_text) by (destruct v; auto; congruence).
  refine (proj1 (all_tell q qr v (fun e => match N e with end) t _ t' x x [] [] _ F F' Logic.I Logic.I eq_refl)); rewrite TX; auto.
Qed.

(** Look-alikes print the same. *)
Theorem alike_same : forall quote quote_rune v t t', look_alike t t' -> tree_format quote quote_rune v t = tree_format quote quote_rune v t'.
Proof.
  intros q qr v. induction t as [tag x cs IH|s|] using tree_ind'; intros t' L; inversion L; subst; auto.
  - cbn [tree_format]. replace (map (tree_format q qr v) ds) with (map (tree_format q qr v) cs); auto.
    clear L. match goal with H : Forall2 _ _ _ |- _ => induction H as [|c d cs ds A _ I] end; auto. inversion IH; subst. cbn [map]. f_equal; auto.
  - cbn [tree_format]. unfold scanner_format.
    repeat match goal with H : leaf_of _ _ |- _ => apply leaf_of_slice in H; rewrite H; clear H end. auto.
Qed.

Theorem printable_prints : forall quote quote_rune v t, printable t -> exists x, tree_format quote quote_rune v t = Some x.
Proof.
  intros q qr v. induction t as [tag x cs IH|s|] using tree_ind'; intros P.
  - inversion P as [tag0 x0 cs0 NB PC| |]; subst. clear P.
    assert (B : forall first, exists b, children_format first (map (tree_format q qr v) cs) = Some b).
    { induction PC as [|c cs P PC I]; [cbn; eauto|]. inversion IH as [|c0 cs0 H1 H2]; subst. intros first.
      destruct (I H2 false) as [b E]. destruct (H1 P) as [y F]. cbn [map children_format]. rewrite E, F. eauto. }
    destruct (B true) as [b E]. cbn [tree_format]. rewrite E. destruct x as [|n|a|y]; cbn; eauto. exfalso. eapply NB; eauto.
  - inversion P; subst. cbn [tree_format]. unfold scanner_format. match goal with H : leaf_of _ _ |- _ => apply leaf_of_slice in H; rewrite H end. eauto.
  - cbn. eauto.
Qed.

(** * Trees from parsing *)

Lemma good_list : forall ts,
  (fix go l := match l with [] => True | u :: l' => good_names u /\ go l' end) ts <-> Forall good_names ts.
Proof.
  intros ts. induction ts as [|t ts IH]; split; intros H; auto.
  - destruct H. constructor; auto. apply IH; auto.
  - inversion H; subst. split; auto. apply IH; auto.
Qed.
Lemma good_gram : forall g : grammar,
  (fix go (l : grammar) := match l with [] => True | kv :: l' => good_names (snd kv) /\ go l' end) g <-> good_grammar g.
Proof.
  intros g. unfold good_grammar. induction g as [|t ts IH]; split; intros H; auto.
  - destruct H. constructor; auto. apply IH; auto.
  - inversion H; subst. split; auto. apply IH; auto.
Qed.
Lemma rule_body_good : forall gs r gs' t, rule_body gs r gs' t -> Forall good_grammar gs -> good_names t /\ Forall good_grammar gs'.
Proof.
  intros gs r gs' t RB S. induction RB as [g gs r t t' L A|g gs r gs' t L RB IH]; inversion S; subst; auto.
  split; [|constructor; auto].
  match goal with H : good_grammar g |- _ => rename H into G end. unfold good_grammar in G. rewrite Forall_forall in G.
  eapply (alias_body_in good_names); eauto.
  - apply lookup_In in L. apply (G _ L).
  - intros r' u L'. apply lookup_In in L'. apply (G _ L').
Qed.
Lemma ref_term_good : forall v t, ref_term v t -> good_names t.
Proof.
  induction v as [tag x cs IH|s0|] using tree_ind'; intros t R; inversion R; subst; cbn [good_names]; auto.
  apply good_list. match goal with H : Forall2 _ _ _ |- _ => revert H end. clear R.
  revert ts. induction IH; intros ts F; inversion F; subst; auto.
Qed.
Lemma good_delim : forall t sep cs ce, good_names t -> good_names sep -> good_names (delim_seq t sep cs ce).
Proof. intros t sep [] [] H1 H2; cbn; auto 10. Qed.
Lemma good_tag_or : forall r alt, r = ""%string \/ good_tag r -> good_tag alt -> good_tag (tag_or r alt).
Proof. intros r alt R A. unfold tag_or. destruct (String.eqb_spec r ""%string); auto. destruct R; auto. contradiction. Qed.
Lemma good_tags : good_tag seqTag /\ good_tag oneofTag /\ good_tag delimTag /\ good_tag quantTag /\ good_tag lookaheadTag.
Proof. unfold good_tag, unmarked. repeat split; cbn; intuition (subst; discriminate). Qed.

Notation anyp := (plain_tree (fun _ => True)).
Lemma plain_kids : forall tag x cs, anyp (Node tag x cs) -> Forall anyp cs.
Proof. intros tag x cs P. inversion P; auto. Qed.
Lemma pairs_plain : forall more pairs, pairs_flat more pairs -> Forall anyp more -> Forall anyp pairs.
Proof.
  induction 1 as [|p s x ps l PO PF IH]; intros F; auto. inversion F as [|p0 ps0 F1 F2]; subst. destruct PO as (tag & ex & rest & ->).
  apply plain_kids in F1. inversion F1 as [|p0 ps0 F3 F4]; subst. inversion F4; subst. auto.
Qed.
Lemma opt_plain : forall t o lead, opt_sep t o lead -> (forall u, t = Some u -> anyp u) -> Forall anyp o.
Proof.
  intros [[tag x [|s cs]|s|]|] o lead O P; cbn in O; try contradiction; subst; auto.
  specialize (P _ eq_refl). apply plain_kids in P. inversion P; subst. destruct lead; repeat constructor; auto.
Qed.
Lemma items_plain : forall cs ce v items, delim_items cs ce v items -> anyp v -> Forall anyp items.
Proof.
  intros cs ce v items (tag & ex & cs1 & core & cs2 & lead & trail & first & more & pairs & -> & _ & L & T & _ & (t1 & x1 & t2 & x2 & r & ->) & PF & ->) P.
  apply plain_kids in P. apply Forall_app in P as [P1 P2]. inversion P2 as [|c l P3 P4]; subst.
  apply plain_kids in P3. inversion P3 as [|c l P5 P6]; subst. inversion P6 as [|c l P7 P8]; subst. apply plain_kids in P7.
  apply Forall_app. split; [|constructor; auto; apply Forall_app; split].
  - eapply opt_plain; eauto. intros u H. destruct cs; [|discriminate]. destruct cs1; inversion H; subst. inversion P1; auto.
  - eapply pairs_plain; eauto.
  - eapply opt_plain; eauto. intros u H. destruct ce; [|discriminate]. destruct cs2; inversion H; subst. inversion P4; auto.
Qed.
Lemma node_plain : forall tag x cs, good_tag tag -> match x with XNone | XAssoc _ => True | _ => False end -> Forall anyp cs -> anyp (Node tag x cs).
Proof. intros tag x cs G X F. apply pl_node; auto; intros y ->; contradiction. Qed.
Lemma left_plain : forall tag l v, nest_left tag l v -> good_tag tag -> Forall anyp l -> anyp v.
Proof.
  induction 1 as [v|l v s x N IH]; intros G F; [inversion F; auto|]. apply Forall_app in F as [F1 F2]. inversion F2 as [|c0 l0 F3 F4]; subst.
  apply node_plain; auto.
Qed.
Lemma right_plain : forall tag l v, nest_right tag l v -> good_tag tag -> Forall anyp l -> anyp v.
Proof.
  induction 1 as [v|l v s x N IH]; intros G F; [inversion F; auto|]. inversion F as [|c0 l0 F1 F2]; subst. inversion F2 as [|c0 l0 F3 F4]; subst.
  apply node_plain; auto.
Qed.
Lemma delim_plain : forall r a items v, delim_result r a items v -> r = ""%string \/ good_tag r -> Forall anyp items -> anyp v.
Proof.
  intros r a items v D R F. assert (G : good_tag (tag_or r delimTag)) by (apply good_tag_or; auto; apply good_tags).
  destruct a; cbn in D.
  - destruct D as [[_ ->]|[_ D]]; [apply node_plain; auto|eapply right_plain; eauto].
  - subst. apply node_plain; auto.
  - destruct D as [[_ ->]|[_ D]]; [apply node_plain; auto|eapply left_plain; eauto].
Qed.
Lemma token_plain : forall E pat s v s', token E pat s (Succ v s') -> anyp v.
Proof. intros E pat s v s' T. inversion T; subst; constructor; auto. Qed.

Lemma derives_plain : forall E,
  (forall gs vs r t s v s', derives E gs vs r t s v s' -> Forall good_grammar gs -> good_names t -> r = ""%string \/ good_tag r -> anyp v) /\
  (forall gs vs ts s cs s', derives_all E gs vs ts s cs s' -> Forall good_grammar gs -> Forall good_names ts -> Forall anyp cs) /\
  (forall gs vs t s cs s', derives_many E gs vs t s cs s' -> Forall good_grammar gs -> good_names t -> Forall anyp cs).
Proof.
  intros E. destruct good_tags as (T1 & T2 & T3 & T4 & T5). apply derives_mutind.
  - intros. eapply token_plain; eauto.
  - intros. eapply token_plain; eauto.
  - intros gs vs r n t s v s' D IH G [N1 N2] R. auto.
  - intros gs vs r t s v s' D IH G N R. auto.
  - intros gs vs r t g s v s' D IH G [N1 N2] R. apply good_gram in N2. auto.
  - intros gs vs r x gs' t s v s' RB D IH G N R. destruct (rule_body_good _ _ _ _ RB G). auto.
  - intros gs vs r ts s cs s' D IH G N R. apply node_plain; auto using good_tag_or. apply IH; auto. apply good_list; auto.
  - intros gs vs r ts i t s v s' H D IH G [N1 N2] R. apply good_list in N2. rewrite Forall_forall in N2. constructor; auto using good_tag_or.
    + discriminate.
    + intros j Q. injection Q as <-. assert (i < length ts)%nat by (apply nth_error_Some; congruence). lia.
    + constructor; auto. apply IH; auto. apply N2. eapply nth_error_In; eauto.
  - intros gs vs r t mn mx s cs s' D IH _ _ G N R. apply node_plain; auto using good_tag_or.
  - intros gs vs r t s v s' D IH G N R. apply node_plain; auto using good_tag_or.
  - intros gs vs r t sep a cs ce s v s' items v' D IH DI DR G [N1 N2] R. eapply delim_plain; eauto. eapply items_plain; eauto. apply IH; auto. apply good_delim; auto.
  - intros gs vs r i d s v t v' s' L RT D IH LT G N R. apply IH; auto. eapply ref_term_good; eauto.
  - intros gs vs r i d s v s' L D IH G N R. apply IH; auto. exact Logic.I.
  - auto.
  - intros gs vs t ts s v s1 cs s' D IHD A IHA G N. inversion N; subst. auto.
  - auto.
  - intros gs vs t s v s1 cs s' D IHD A IHA G N. auto.
Qed.

Lemma result_plain : forall c g ps r f s v s1, cf_esc c = None -> compile (cf_eng c) g = COk ps -> readable g -> good_grammar g -> good_tag r ->
  drawn_ok (cf_rnd c) (draws c f ps r s) -> result (parse_rule c f ps r s) v s1 -> anyp v.
Proof.
  intros c g ps r f s v s1 HE HC HR HG HT HD H. pose proof (result_derives c HE g ps HC HR f r s v s1 HD H) as D.
  eapply (proj1 (derives_plain (cf_eng c))); [exact D|repeat constructor; auto|exact HT|auto].
Qed.
Theorem parsed_tells : forall quote quote_rune, quotes quote -> rune_quotes quote_rune ->
  forall c g ps r f s v s1, cf_esc c = None -> compile (cf_eng c) g = COk ps -> readable g -> good_grammar g -> good_tag r ->
  drawn_ok (cf_rnd c) (draws c f ps r s) -> result (parse_rule c f ps r s) v s1 ->
  forall c' g' ps' r' f' s' v' s1', cf_esc c' = None -> compile (cf_eng c') g' = COk ps' -> readable g' -> good_grammar g' -> good_tag r' ->
  drawn_ok (cf_rnd c') (draws c' f' ps' r' s') -> result (parse_rule c' f' ps' r' s') v' s1' ->
  forall x, tree_format quote quote_rune ByQ v = Some x -> tree_format quote quote_rune ByQ v' = Some x -> look_alike v v'.
Proof.
  intros q qr Q QR c g ps r f s v s1 A1 A2 A3 A4 A5 A6 A7 c' g' ps' r' f' s' v' s1' B1 B2 B3 B4 B5 B6 B7 x F F'.
  apply (quoted_tells q qr Q QR v v' x); auto.
  - apply (result_plain c g ps r f s v s1); auto.
  - apply (result_plain c' g' ps' r' f' s' v' s1'); auto.
Qed.
