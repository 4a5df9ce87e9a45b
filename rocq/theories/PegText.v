(** Derivations of grammar texts: the terms of the grammar language on texts between white space. *)
From Verif Require Import Base Scanner ScannerSpec ScannerProofs Syntax Resolve Engine Regex RegexProofs Compile CompileProofs PegSpec CutProofs WbnfGrammar Ast TokenProofs LexProofs LayoutAst LayoutSpec.
Local Open Scope string_scope.
Local Open Scope list_scope.

(** * Scanners at a text *)
Definition At (s : scanner) (x : bytes) : Prop :=
  exists o pre post, src s = Some o /\ origin o = pre ++ x ++ post /\ start s = blen pre /\ slen s = blen x.
Lemma At_slice : forall s x, At s x -> sslice s = Some x.
Proof.
  intros s x (o & pre & post & S & O & I & N).
  rewrite (window_slice s o (length pre) (length x)).
  - rewrite O. rewrite skipn_app, skipn_all, Nat.sub_diag. cbn [app skipn]. rewrite firstn_app, Nat.sub_diag, firstn_all. cbn [firstn]. rewrite app_nil_r. auto.
  - unfold window, blen in *. repeat split; auto. rewrite O, !app_length. lia.
Qed.
Lemma At_part : forall s a t b, At s (a ++ t ++ b) -> At (slice s (blen a) (blen a + blen t)) t.
Proof.
  intros s a t b (o & pre & post & S & O & I & N). exists o, (pre ++ a), (b ++ post). cbn [slice src start slen].
  rewrite O, <- !app_assoc, I, blen_app. repeat split; auto. lia.
Qed.
Lemma At_skip : forall s a b, At s (a ++ b) -> At (skip s (blen a)) b.
Proof.
  intros s a b (o & pre & post & S & O & I & N). exists o, (pre ++ a), post. cbn [skip src start slen].
  rewrite O, <- !app_assoc, I, N, !blen_app. repeat split; auto. lia.
Qed.

Section Texts.
  Variable E : engine.
  Hypothesis same : finds_tokens E.
  Variable s0 : scanner.
  (** At a text; at the start [s0], up to white space in front. *)
  Definition at_ (s : scanner) (x : bytes) : Prop := bare x /\ exists w, forallb white w = true /\ At s (w ++ x) /\ (w = [] \/ s = s0).

  (** * Tokens *)
  Definition known (x : bytes) (r : re) : Prop :=
    In x wbnf_patterns /\ parse_re (anchor ++ wrapped (group x)) = Some (RCat (RAssert ABegText) (token_re r), 1%nat) /\ blocks white r = true.
  Lemma find_same : forall x t, In x wbnf_patterns -> re_find E (anchor ++ wrapped (group x)) t = re_find regex_engine (anchor ++ wrapped (group x)) t.
  Proof.
    intros x t I. specialize (same x t I). replace (anchor ++ wrapped (group x)) with (anchor ++ bs "\s*(?:" ++ group x ++ bs ")\s*"); auto.
  Qed.
  Lemma lex_ok : forall x r t w y s, known x r -> takes r t (w ++ y) -> forallb white w = true -> bare (t ++ w ++ y) -> bare y ->
    at_ s (t ++ w ++ y) -> exists v s', PegSpec.token E (wrapped (group x)) s (Succ v s') /\ at_ s' y /\ leafy t v.
  Proof.
    intros x r t w y s (I & P & _) T W B Y (_ & w0 & W0 & A & _).
    rewrite whites_spaces in W, W0.
    destruct (token_taken r w0 t w y W0 B W Y T) as (st & M & MP & MC).
    assert (F : re_find E (anchor ++ wrapped (group x)) (w0 ++ t ++ w ++ y) = Some [(0%Z, mpos st); (blen w0, (blen w0 + blen t)%Z)]).
    { rewrite find_same by auto. rewrite (find_token _ r) by auto. rewrite M, MC. reflexivity. }
    exists (Leaf (slice s (blen w0) (blen w0 + blen t))), (skip s (mpos st)). split; [|split].
    - exact (tok_one E _ s _ _ _ (At_slice _ _ A) F).
    - split; auto. exists []. split; auto. split; auto. cbn [app]. rewrite MP, <- Z.add_assoc, <- !blen_app. rewrite app_assoc in A.
      replace (w0 ++ t ++ w ++ y) with ((w0 ++ t ++ w) ++ y) in A by (rewrite <- !app_assoc; auto). 
      replace ((w0 ++ t) ++ w ++ y) with ((w0 ++ t ++ w) ++ y) in A by (rewrite <- !app_assoc; auto).
      rewrite <- app_assoc in *. apply At_skip. rewrite <- !app_assoc in *. auto.
    - eexists. split; eauto. pose proof (At_slice _ _ (At_part _ _ _ _ A)) as SL. unfold sstring. destruct A as (o & pre & post & S & _).
      cbn [slice src]. rewrite S. exact SL.
  Qed.
  Lemma lex_no : forall x r y s, known x r -> dead r y -> at_ s y -> PegSpec.token E (wrapped (group x)) s Fail.
  Proof.
    intros x r y s (I & P & K) D (B & w0 & W0 & A & _). rewrite whites_spaces in W0. unfold blocks in K. apply andb_true_iff in K as [N K]. apply negb_true_iff in N.
    apply tok_fail with (t := w0 ++ y); [apply At_slice; auto|]. rewrite find_same by auto. rewrite (find_token _ r) by auto.
    rewrite token_missing; auto. intros c S. apply (apart_chars _ _ K). rewrite white_space. auto.
  Qed.

  (** * Terms *)
  Definition blank_wrap (gs : grammars) : Prop := wrap_of gs = Some (RE_ "\s*()\s*").
  Definition ok (t : term) (x y : bytes) (P : tree -> Prop) : Prop := forall vs r s, at_ s x ->
    exists v s', peg E [W] vs r t s (Succ v s') /\ at_ s' y /\ P v.
  Definition no_in (gs : grammars) (t : term) (x : bytes) : Prop := forall vs r s, at_ s x -> peg E gs vs r t s Fail.
  Definition no := no_in [W].
  Lemma W_blank : blank_wrap [W].
  Proof. reflexivity. Qed.
  Lemma pattern_blank : forall gs x pre, blank_wrap gs -> token_pattern (wrap_of gs) x pre (wrapped pre).
  Proof. intros gs x pre B. rewrite B. apply apply_wrap_spec. cbn -[wrapped]. rewrite <- app_assoc. reflexivity. Qed.

  Lemma re_ok : forall x r t w y, known x r -> takes r t (w ++ y) -> forallb white w = true -> bare y -> ok (TRE x) (t ++ w ++ y) y (leafy t).
  Proof.
    intros x r t w y K T W Y vs rl s A. destruct (lex_ok x r t w y s K T W (proj1 A) Y A) as (v & s' & P & A' & L).
    exists v, s'. split; auto. eapply P_re; eauto. apply pattern_blank, W_blank.
  Qed.
  Lemma re_no : forall gs x r y, blank_wrap gs -> known x r -> dead r y -> no_in gs (TRE x) y.
  Proof. intros gs x r y B K D vs rl s A. eapply P_re; [apply pattern_blank; auto|]. eapply lex_no; eauto. Qed.
  Lemma lit_ok : forall x w y, known (quote_meta x) (lit_re x) -> forallb white w = true -> bare y -> ok (TS x) (x ++ w ++ y) y (leafy x).
  Proof.
    intros x w y K W Y vs rl s A. destruct (lex_ok (quote_meta x) (lit_re x) x w y s K (takes_lit _ _) W (proj1 A) Y A) as (v & s' & P & A' & L).
    exists v, s'. split; auto. eapply P_lit; eauto. apply pattern_blank, W_blank.
  Qed.
  Lemma lit_no : forall gs x y, blank_wrap gs -> known (quote_meta x) (lit_re x) -> dead (lit_re x) y -> no_in gs (TS x) y.
  Proof. intros gs x y B K D vs rl s A. eapply P_lit; [apply pattern_blank; auto|]. eapply lex_no; eauto. Qed.

  Lemma ok_weak : forall t x y (P Q : tree -> Prop), (forall v, P v -> Q v) -> ok t x y P -> ok t x y Q.
  Proof. intros t x y P Q PQ H vs r s A. destruct (H vs r s A) as (v & s' & D & A' & HP). eauto 6. Qed.
  Lemma named_ok : forall n t x y P, ok t x y P -> ok (TNamed n t) x y P.
  Proof. intros n t x y P H vs r s A. destruct (H vs n s A) as (v & s' & D & R). exists v, s'. split; auto. constructor. auto. Qed.
  Lemma named_no : forall gs n t x, no_in gs t x -> no_in gs (TNamed n t) x.
  Proof. intros gs n t x H vs r s A. constructor. apply H. auto. Qed.
  Lemma cut_ok : forall t x y P, ok t x y P -> ok (TCut t) x y P.
  Proof. intros t x y P H vs r s A. destruct (H vs r s A) as (v & s' & D & R). exists v, s'. split; auto. constructor. auto. Qed.
  Lemma cut_no : forall gs t x, no_in gs t x -> no_in gs (TCut t) x.
  Proof. intros gs t x H vs r s A. constructor. apply H. auto. Qed.
  Lemma W_rule : forall r, lookup r W <> None -> (forall x, body r <> TRule x) -> rule_body [W] r [W] (body r).
  Proof.
    intros r L N. unfold body in *. destruct (lookup r W) as [t|] eqn:Q; [|congruence]. econstructor; eauto. constructor. auto.
  Qed.
  Lemma rule_ok : forall r x y P, lookup r W <> None -> (forall x, body r <> TRule x) -> ok (body r) x y P -> ok (TRule r) x y P.
  Proof. intros r x y P L N H vs rl s A. destruct (H vs r s A) as (v & s' & D & R). exists v, s'. split; auto. econstructor; eauto. apply W_rule; auto. Qed.
  Lemma rule_no : forall r x, lookup r W <> None -> (forall x, body r <> TRule x) -> no (body r) x -> no (TRule r) x.
  Proof. intros r x L N H vs rl s A. econstructor; [apply W_rule; auto|]. apply H. auto. Qed.

  (** Sequences. *)
  Inductive seqs : list term -> bytes -> bytes -> list (tree -> Prop) -> Prop :=
  | sq_end : forall x, seqs [] x x []
  | sq_next : forall t ts x z y P Ps, ok t x z P -> seqs ts z y Ps -> seqs (t :: ts) x y (P :: Ps).
  Lemma seq_ok : forall ts x y Ps, seqs ts x y Ps -> ok (TSeq ts) x y (nodes Ps).
  Proof.
    intros ts x y Ps H vs r s A.
    assert (G : forall vs cut acc, exists us s', peg_seq E [W] vs cut r ts acc s (Succ (Node (tag_or r seqTag) XNone (acc ++ us)) s') /\ at_ s' y /\
      Forall2 (fun (P : tree -> Prop) v => P v) Ps us).
    { clear vs. revert s A. induction H as [x|t ts x z y P Ps H _ IH]; intros s A vs cut acc.
      - exists [], s. rewrite app_nil_r. repeat split; try apply A; constructor.
      - destruct (H vs "" s A) as (v & s1 & D & A1 & HP).
        destruct (commits_dec _ _ _ _ _ _ _ D) as [C|C].
        + destruct (IH s1 A1 (bind vs (label t) v) true (acc ++ [v])) as (us & s' & DS & A' & F). exists (v :: us), s'.
          rewrite <- app_assoc in DS. split; [eapply PS_next; eauto|]. split; auto.
        + destruct (IH s1 A1 (bind vs (label t) v) cut (acc ++ [v])) as (us & s' & DS & A' & F). exists (v :: us), s'.
          rewrite <- app_assoc in DS. split; [eapply PS_next; eauto|]. split; auto. }
    destruct (G vs false []) as (us & s' & D & A' & F). eexists. exists s'. split; [constructor; exact D|]. split; auto.
    eexists. eexists. split; [reflexivity|auto].
  Qed.
  Lemma seq_no : forall gs t ts x, no_in gs t x -> no_in gs (TSeq (t :: ts)) x.
  Proof. intros gs t ts x H vs r s A. constructor. exact (PS_fail E gs vs false r t ts [] s (H vs "" s A)). Qed.
  Lemma seq_no2 : forall t u ts x z P, ~ commits [W] t -> ok t x z P -> no u z -> no (TSeq (t :: u :: ts)) x.
  Proof.
    intros t u ts x z P C H N vs r s A. constructor. destruct (H vs "" s A) as (v & s1 & D & A1 & _).
    eapply PS_next; [exact D|right; split; [exact C|reflexivity]|]. exact (PS_fail E [W] _ false r u ts _ s1 (N _ "" s1 A1)).
  Qed.

  (** Repetitions. *)
  Inductive reps (t : term) : bytes -> bytes -> list (tree -> Prop) -> Prop :=
  | rp_end : forall x, no t x -> reps t x x []
  | rp_more : forall x z y P Ps, ok t x z P -> reps t z y Ps -> reps t x y (P :: Ps).
  Lemma reps_peg : forall t x y Ps, reps t x y Ps -> forall mn vs r s acc, at_ s x -> (mn <= length acc + length Ps)%nat ->
    exists us s', peg_rep E [W] vs r mn 0 t acc s (Succ (Node (tag_or r quantTag) XNone (acc ++ us)) s') /\ at_ s' y /\
      Forall2 (fun (P : tree -> Prop) v => P v) Ps us.
  Proof.
    intros t x y Ps H mn vs r. induction H as [x N|x z y P Ps H _ IH]; intros s acc A L.
    - exists [], s. rewrite app_nil_r. split; [|split; auto; constructor].
      pose proof (PR_stop E [W] vs r mn 0 t acc s (or_introl eq_refl) (N vs "" s A)) as D. cbn [length] in L.
      rewrite (proj2 (Nat.leb_le mn (length acc))) in D by lia. auto.
    - destruct (H vs "" s A) as (v & s1 & D & A1 & HP).
      destruct (IH s1 (acc ++ [v]) A1) as (us & s' & DS & A' & F); [rewrite app_length; cbn [length] in *; lia|].
      exists (v :: us), s'. rewrite <- app_assoc in DS. split; [eapply PR_more; eauto; left; auto|]. split; auto.
  Qed.
  Lemma reps_ok : forall t mn x y Ps, reps t x y Ps -> (mn <= length Ps)%nat -> ok (TQuant t mn 0) x y (nodes Ps).
  Proof.
    intros t mn x y Ps H L vs r s A. destruct (reps_peg _ _ _ _ H mn vs r s [] A L) as (us & s' & D & A' & F).
    eexists. exists s'. split; [constructor; exact D|]. split; auto. eexists. eexists. split; [reflexivity|auto].
  Qed.
  Lemma opt_none : forall t x, no t x -> ok (Opt t) x x (nodes []).
  Proof.
    intros t x N vs r s A. eexists. exists s. split; [constructor; exact (PR_stop E [W] vs r 0 1 t [] s (or_intror Nat.lt_0_1) (N vs "" s A))|].
    split; auto. eexists. eexists. split; [reflexivity|constructor].
  Qed.
  Lemma opt_some : forall t x y P, ok t x y P -> ok (Opt t) x y (nodes [P]).
  Proof.
    intros t x y P H vs r s A. destruct (H vs "" s A) as (v & s1 & D & A1 & HP). eexists. exists s1. split.
    - constructor. eapply PR_more; [right; exact Nat.lt_0_1|exact D|].
      exact (PR_full E [W] vs r 0 1 t [v] s1 ltac:(intros [H0|H0]; cbn [length] in H0; lia)).
    - split; auto. eexists. eexists. split; [reflexivity|]. constructor; [auto|constructor].
  Qed.
  Lemma some_no : forall t mn x, no t x -> no (TQuant t (S mn) 0) x.
  Proof. intros t mn x N vs r s A. constructor. exact (PR_stop E [W] vs r (S mn) 0 t [] s (or_introl eq_refl) (N vs "" s A)). Qed.

  (** Choices. *)
  Lemma oneof_ok : forall ts i t x y P, nth_error ts i = Some t -> Forall (fun u => no u x) (firstn i ts) -> ok t x y P -> ok (TOneof ts) x y (chose i P).
  Proof.
    intros ts i t x y P T F H vs r s A. destruct (H vs "" s A) as (v & s1 & D & A1 & HP).
    exists (Node (tag_or r oneofTag) (XChoice i) [v]), s1. split; [|split; auto; eexists; eexists; split; eauto]. constructor.
    assert (G : forall ts i k, nth_error ts i = Some t -> Forall (fun u => no u x) (firstn i ts) ->
      peg_alt E [W] vs r k ts s (Succ (Node (tag_or r oneofTag) (XChoice (k + i)) [v]) s1)).
    { clear - A D. induction ts as [|u ts IH]; intros i k T F; [destruct i; discriminate|]. destruct i as [|i]; cbn [nth_error firstn] in *.
      - inversion T; subst. rewrite Nat.add_0_r. constructor. auto.
      - inversion F; subst. apply PA_next; [match goal with X : no u x |- _ => apply X; auto end|]. rewrite <- Nat.add_succ_comm. apply IH; auto. }
    apply (G ts i 0); auto.
  Qed.
  Lemma oneof_no : forall gs ts x, Forall (fun u => no_in gs u x) ts -> no_in gs (TOneof ts) x.
  Proof.
    intros gs ts x F vs r s A. constructor. generalize 0%nat. induction F as [|t ts N F IH]; intros i; [constructor|]. apply PA_next; auto.
  Qed.

  (** Lists with separators. *)
  Lemma each_cons : forall (P : tree -> Prop) Ps l, Forall2 (fun (P : tree -> Prop) v => P v) (P :: Ps) l ->
    exists v vs, l = v :: vs /\ P v /\ Forall2 (fun (P : tree -> Prop) v => P v) Ps vs.
  Proof. intros P Ps l F. inversion F; subst. eauto. Qed.
  Inductive delims {B} (t sep : term) (P : B -> tree -> Prop) (Q : tree -> Prop) : bytes -> bytes -> list B -> Prop :=
  | dl_one : forall x y c, ok t x y (P c) -> no sep y -> delims t sep P Q x y [c]
  | dl_more : forall x z u y c cs, ok t x z (P c) -> ok sep z u Q -> delims t sep P Q u y cs -> delims t sep P Q x y (c :: cs).
  Lemma delims_reps : forall B t sep (P : B -> tree -> Prop) Q x y cs, delims t sep P Q x y cs ->
    exists c cs' z, cs = c :: cs' /\ ok t x z (P c) /\ reps (TSeq [sep; t]) z y (map (fun c => nodes [Q; P c]) cs').
  Proof.
    intros B t sep P Q x y cs H. induction H as [x y c H N|x z u y c cs H HS _ IH].
    - exists c, [], y. repeat split; auto. constructor. apply seq_no. auto.
    - destruct IH as (c' & cs' & z' & -> & H' & R). exists c, (c' :: cs'), z. repeat split; auto. cbn [map].
      eapply rp_more; [|exact R]. apply seq_ok. econstructor; [exact HS|]. econstructor; [exact H'|constructor].
  Qed.
  Lemma delim_ok : forall B t sep (P : B -> tree -> Prop) Q x y cs, delims t sep P Q x y cs ->
    ok (TDelim t sep NonAssociative false false) x y (listed P Q cs).
  Proof.
    intros B t sep P Q x y cs H vs r s A. destruct (delims_reps _ _ _ _ _ _ _ _ H) as (c & cs' & z & -> & H0 & R).
    assert (S : ok (delim_seq t sep false false) x y (nodes [nodes [P c; nodes (map (fun c => nodes [Q; P c]) cs')]])).
    { apply seq_ok. econstructor; [|constructor]. apply seq_ok. econstructor; [exact H0|]. econstructor; [|constructor].
      apply reps_ok; [exact R|lia]. }
    destruct (S vs r s A) as (v & s' & D & A' & (tag & l & -> & F)).
    destruct (each_cons _ _ _ F) as (? & ? & -> & (tag1 & l1 & -> & F1) & F0). inversion F0; subst.
    destruct (each_cons _ _ _ F1) as (first & ? & -> & HP & F2). destruct (each_cons _ _ _ F2) as (? & ? & -> & (tag2 & l2 & -> & F3) & F4). inversion F4; subst.
    assert (G : exists pairs, pairs_flat l2 pairs /\ alternating P Q (c :: cs') (first :: pairs)).
    { clear - F3 HP. revert c first l2 HP F3. induction cs' as [|c' cs' IH]; intros c first l2 HP F; cbn [map] in F.
      - inversion F; subst. exists []. split; constructor. auto.
      - destruct (each_cons _ _ _ F) as (? & ? & -> & (tg & l & -> & FF) & F'). destruct (each_cons _ _ _ FF) as (q & ? & -> & HQ & F1).
        destruct (each_cons _ _ _ F1) as (p & ? & -> & HP' & F2). inversion F2; subst.
        destruct (IH c' p _ HP' F') as (pairs & PF & AL). exists (q :: p :: pairs). split; [constructor; auto; eexists; eexists; eexists; reflexivity|].
        constructor; auto. }
    destruct G as (pairs & PF & AL).
    exists (Node (tag_or r delimTag) (XAssoc NonAssociative) (first :: pairs)), s'. split; [|split; auto; eexists; eexists; split; eauto].
    eapply P_delim with (items := first :: pairs); [exact D| |reflexivity].
    exists tag, XNone, [], (Node tag1 XNone [first; Node tag2 XNone l2]), [], [], [], first, l2, pairs.
    repeat split; auto; try discriminate.
    - eexists. eexists. eexists. eexists. eexists. reflexivity.
    - cbn [app]. rewrite app_nil_r. auto.
  Qed.
  Lemma delim_no : forall t sep x, no t x -> no (TDelim t sep NonAssociative false false) x.
  Proof. intros t sep x N vs r s A. apply P_delim_no; auto. exact (seq_no [W] _ [] x (seq_no [W] _ _ x N) vs r s A). Qed.
End Texts.
