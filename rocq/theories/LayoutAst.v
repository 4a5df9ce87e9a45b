(** From the parse trees of grammar texts to what their ASTs say. *)
From Verif Require Import Base Scanner ScannerSpec ScannerProofs Syntax Resolve WbnfGrammar Ast WbnfAst StrLit Build NumSpec TextSpec RefsSpec TokenProofs LayoutSpec.
Local Open Scope string_scope.
Local Open Scope list_scope.

(** The wbnf grammar with its stack resolved. *)
Definition W : grammar := Eval vm_compute in match resolve_stacks wbnf_grammar with COk g => g | _ => [] end.
Definition body (r : string) : term := match lookup r W with Some t => t | None => TSeq [] end.
Definition cc (r : string) : counters := match new_counters (lookup r W) with COk c => c | _ => [] end.

Section Steps.
  Definition step (t : term) (ctrs : counters) (v : tree) (b b' : branch) : Prop :=
    exists N, forall n, (N <= n)%nat -> from_node n (Some t) ctrs v (b, W) = COk (b', W).
  Inductive walks (ctrs : counters) : list (term * tree) -> branch -> branch -> Prop :=
  | wk_nil : forall b, walks ctrs [] b b
  | wk_cons : forall t v l b b1 b2, step t ctrs v b b1 -> walks ctrs l b1 b2 -> walks ctrs ((t, v) :: l) b b2.

  Lemma step_s : forall x ctrs l b b', badd "" (ALeaf l) (ctr ctrs "") b = COk b' -> step (TS x) ctrs (Leaf l) b b'.
  Proof. intros x ctrs l b b' H. exists 1. intros [|n] L; [lia|]. cbn [from_node]. rewrite H. auto. Qed.
  Lemma step_re : forall x ctrs l b b', badd "" (ALeaf l) (ctr ctrs "") b = COk b' -> step (TRE x) ctrs (Leaf l) b b'.
  Proof. intros x ctrs l b b' H. exists 1. intros [|n] L; [lia|]. cbn [from_node]. rewrite H. auto. Qed.
  Lemma step_cut : forall t ctrs v b b', step t ctrs v b b' -> step (TCut t) ctrs v b b'.
  Proof. intros t ctrs v b b' [N H]. exists (S N). intros [|n] L; [lia|]. cbn [from_node]. apply H. lia. Qed.
  Lemma step_named : forall n t ctrs v b b2 b' c, new_counters (Some t) = COk c -> step t c v [] b2 ->
    badd n (ABranch b2) (ctr ctrs n) b = COk b' -> step (TNamed n t) ctrs v b b'.
  Proof.
    intros n t ctrs v b b2 b' c C [N H] B. exists (S N). intros [|k] L; [lia|]. cbn [from_node]. rewrite C. cbn [cbind].
    rewrite H by lia. cbn [cbind]. rewrite B. auto.
  Qed.
  Lemma step_rule : forall r nm lv ctrs v b b2 b', new_counters (lookup r W) = COk (cc r) -> unlevel r W = COk (nm, lv) -> lookup r W = Some (body r) ->
    step (body r) (cc r) v [] b2 -> badd nm (ABranch b2) (ctr ctrs r) b = COk b' -> step (TRule r) ctrs v b b'.
  Proof.
    intros r nm lv ctrs v b b2 b' C U L [N H] B. exists (S N). intros [|k] K; [lia|]. cbn [from_node]. rewrite C. cbn [cbind].
    rewrite U. cbn [cbind]. rewrite L, H by lia. cbn [cbind fst]. rewrite B. auto.
  Qed.
  Lemma step_oneof : forall ts t ctrs tag i v rest b b1 b', badd_many "@choice" (AExtra (DChoice i)) b = COk b1 -> nth_error ts i = Some t ->
    step t ctrs v b1 b' -> step (TOneof ts) ctrs (Node tag (XChoice i) (v :: rest)) b b'.
  Proof.
    intros ts t ctrs tag i v rest b b1 b' C T [N H]. exists (S N). intros [|k] K; [lia|]. cbn [from_node]. rewrite C. cbn [cbind]. rewrite T.
    apply H. lia.
  Qed.
  Lemma walks_each : forall ctrs ts vs b b', length vs = length ts -> walks ctrs (combine ts vs) b b' -> forall us, exists N, forall n, (N <= n)%nat ->
    each (fun i c st => match nth_error (us ++ ts) i with Some t => from_node n (Some t) ctrs c st | None => CPanic end) (length us) vs (b, W) = COk (b', W).
  Proof.
    intros ctrs ts. induction ts as [|t ts IH]; intros [|v vs] b b' L K us; try discriminate; cbn [combine] in K; inversion K; subst.
    - exists 0. intros. reflexivity.
    - match goal with A : step _ _ _ _ _ |- _ => destruct A as [N1 H1] end. injection L as L.
      destruct (IH vs b1 b' L ltac:(assumption) (us ++ [t])) as [N2 H2]. exists (N1 + N2). intros n Q. cbn [each].
      rewrite nth_error_app2, Nat.sub_diag by lia. cbn [nth_error]. rewrite H1 by lia. cbn [cbind].
      rewrite <- (H2 n) by lia. rewrite app_length, <- app_assoc. cbn [length app]. rewrite Nat.add_1_r. reflexivity.
  Qed.
  Lemma step_seq : forall ts ctrs tag ex vs b b', length vs = length ts -> walks ctrs (combine ts vs) b b' -> step (TSeq ts) ctrs (Node tag ex vs) b b'.
  Proof.
    intros ts ctrs tag ex vs b b' L K. destruct (walks_each ctrs ts vs b b' L K []) as [N H]. exists (S N). intros [|n] Q; [lia|]. cbn [from_node].
    apply H. lia.
  Qed.
  Lemma step_quant : forall t mn mx ctrs tag ex vs b b', walks ctrs (map (fun v => (t, v)) vs) b b' -> step (TQuant t mn mx) ctrs (Node tag ex vs) b b'.
  Proof.
    intros t mn mx ctrs tag ex vs b b' K.
    assert (H : forall i, exists N, forall n, (N <= n)%nat -> each (fun _ c st => from_node n (Some t) ctrs c st) i vs (b, W) = COk (b', W)).
    { revert b K. induction vs as [|v vs IH]; intros b K i; cbn [map] in K; inversion K; subst.
      - exists 0. reflexivity.
      - match goal with A : step _ _ _ _ _ |- _ => destruct A as [N1 H1] end. destruct (IH b1 ltac:(assumption) (S i)) as [N2 H2].
        exists (N1 + N2). intros n Q. cbn [each]. rewrite H1 by lia. cbn [cbind]. apply H2. lia. }
    destruct (H 0) as [N HN]. exists (S N). intros [|n] Q; [lia|]. cbn [from_node]. apply HN. lia.
  Qed.
  Fixpoint alts (t sep : term) (i : nat) (vs : list tree) : list (term * tree) :=
    match vs with [] => [] | v :: vs' => ((if Nat.odd i then sep else t), v) :: alts t sep (S i) vs' end.
  Lemma step_delim : forall t sep ctrs tag vs b b', term_same t (TDelim t sep NonAssociative false false) = Some false ->
    term_same sep (TDelim t sep NonAssociative false false) = Some false -> ~ In Empty vs -> walks ctrs (alts t sep 0 vs) b b' ->
    step (TDelim t sep NonAssociative false false) ctrs (Node tag (XAssoc NonAssociative) vs) b b'.
  Proof.
    intros t sep ctrs tag vs b b' ST SS NE K. set (self := TDelim t sep NonAssociative false false) in *.
    assert (H : forall i, walks ctrs (alts t sep i vs) b b' -> exists N, forall n, (N <= n)%nat ->
      each (fun i child st =>
          match child with
          | Empty => cbind (badd_many "@empty" (AExtra (DString (if Nat.eqb i 0 then "@prefix" else "@suffix"))) (fst st)) (fun b' => COk (b', snd st))
          | _ =>
              let lr := lr_term t sep self NonAssociative i in
              match term_same lr self with
              | None => CPanic
              | Some true =>
                  match child with
                  | Node _ _ _ =>
                      cbind (new_counters (Some lr)) (fun cc =>
                      cbind (count_children self (ctr ctrs "") cc) (fun cc =>
                      cbind (from_node n (Some lr) cc child ([], snd st)) (fun '(b2, g2) =>
                      cbind (badd_one tag (ABranch b2) (fst st)) (fun b' => COk (b', g2)))))
                  | _ => from_node n (Some t) ctrs child st
                  end
              | Some false => from_node n (Some lr) ctrs child st
              end
          end) i vs (b, W) = COk (b', W)).
    { clear K. revert b. induction vs as [|v vs IH]; intros b i K; cbn [alts] in K; inversion K; subst.
      - exists 0. reflexivity.
      - match goal with A : step _ _ _ _ _ |- _ => destruct A as [N1 H1] end.
        destruct (IH ltac:(intros X; apply NE; right; auto) b1 (S i) ltac:(assumption)) as [N2 H2].
        exists (N1 + N2). intros n Q. cbn [each].
        assert (LR : lr_term t sep self NonAssociative i = if Nat.odd i then sep else t) by (unfold lr_term; destruct (Nat.odd i); auto; destruct (Nat.even _); auto).
        rewrite LR. destruct v as [tg ex cs|l|]; [| |exfalso; apply NE; left; auto];
          replace (term_same (if Nat.odd i then sep else t) self) with (Some false) by (destruct (Nat.odd i); auto);
          rewrite H1 by lia; cbn [cbind]; apply H2; lia. }
    destruct (H 0 K) as [N HN]. exists (S N). intros [|n] Q; [lia|]. cbn [from_node]. apply HN. lia.
  Qed.
End Steps.

(** * Rules *)
Definition choice (i : nat) : string * children anode := ("@choice", Many [AExtra (DChoice i)]).
(** ASTs without nested grammars and pragmas. *)
Definition odd_name (x : string) : bool := String.eqb x "grammar" || String.eqb x "macrodef" || String.eqb x "pragma".
Definition free (n : anode) : Prop := forall b, below n (ABranch b) -> Forall (fun kv : string * children anode => odd_name (fst kv) = false) b.
Definition free_child (c : children anode) : Prop := match c with One n => free n | Many ns => Forall free ns end.
Lemma free_leaf : forall l, free (ALeaf l).
Proof. intros l b H. inversion H. Qed.
Lemma free_extra : forall l, free (AExtra l).
Proof. intros l b H. inversion H. Qed.
Lemma free_branch : forall b, Forall (fun kv : string * children anode => odd_name (fst kv) = false /\ free_child (snd kv)) b -> free (ABranch b).
Proof.
  intros b F b' H. inversion H as [? |? name c ? I B|? name cs c ? I IC B]; subst.
  - eapply Forall_impl; [|exact F]. intros kv [A _]. exact A.
  - rewrite Forall_forall in F. destruct (F _ I) as [_ G]. exact (G _ B).
  - rewrite Forall_forall in F. destruct (F _ I) as [_ G]. cbn in G. rewrite Forall_forall in G. exact (G _ IC _ B).
Qed.
Definition leaf_of (t : bytes) (b : branch) : Prop := exists l, b = [("", One (ALeaf l))] /\ sstring l = Some t.
Ltac fr := repeat first
  [ match goal with |- free_child _ => unfold free_child, choice; cbn [snd] end
  | match goal with |- free (ABranch ?b) => is_var b; first [assumption|match goal with K : _ /\ free (ABranch b) |- _ => exact (proj2 K) end
      |match goal with L : leaf_of _ b |- _ => destruct L as (? & -> & _) end] end
  | apply free_leaf | apply free_extra
  | apply free_branch
  | apply Forall_cons | apply Forall_nil
  | match goal with |- _ /\ _ => split end
  | match goal with |- odd_name _ = false => reflexivity end ].
Definition built (r : string) (R : branch -> Prop) (v : tree) : Prop := exists b, (step (body r) (cc r) v [] b /\ free (ABranch b)) /\ R b.
Definition leafy (t : bytes) (v : tree) : Prop := exists l, v = Leaf l /\ sstring l = Some t.
Definition nodes (Ps : list (tree -> Prop)) (v : tree) : Prop := exists tag vs, v = Node tag XNone vs /\ Forall2 (fun (P : tree -> Prop) v => P v) Ps vs.
Definition chose (i : nat) (P : tree -> Prop) (v : tree) : Prop := exists tag c, v = Node tag (XChoice i) [c] /\ P c.
Definition word (r : string) (t : bytes) : tree -> Prop := built r (leaf_of t).

Definition rule_named (r nm : string) : Prop :=
  lookup r W = Some (body r) /\ new_counters (lookup r W) = COk (cc r) /\ match unlevel r W with COk (x, _) => x = nm | _ => False end.
Lemma built_step : forall r nm R v ctrs b, rule_named r nm -> built r R v -> exists b2, R b2 /\
  ((forall b', badd nm (ABranch b2) (ctr ctrs r) b = COk b' -> step (TRule r) ctrs v b b') /\ free (ABranch b2)).
Proof.
  intros r nm R v ctrs b (L & C & U) (b2 & (H & FR) & HR). exists b2. split; auto. split; auto. intros b' B.
  destruct (unlevel r W) as [[x lv]| |] eqn:E; try contradiction. subst x. eapply step_rule; eauto.
Qed.
Ltac rn := split; [vm_compute; reflexivity|split; [vm_compute; reflexivity|vm_compute; reflexivity]].
Lemma leafy_word : forall r x t v, body r = TRE x -> cc r = [("", (1, 1))] -> leafy t v -> word r t v.
Proof.
  intros r x t v B C (l & -> & S). exists [("", One (ALeaf l))]. split; [split; [|fr]|exists l; auto]. rewrite B, C. apply step_re. reflexivity.
Qed.

Ltac opn := unfold built;
  match goal with |- exists b, (step (body ?r) (cc ?r) _ _ b /\ _) /\ _ =>
    let t := eval vm_compute in (body r) in let c := eval vm_compute in (cc r) in
    change (body r) with t; change (cc r) with c end.
Ltac nod := repeat match goal with
  | X : nodes _ _ |- _ => let tag := fresh "tag" in let vs := fresh "vs" in let F := fresh "F" in destruct X as (tag & vs & -> & F)
  | X : Forall2 _ (_ :: _) _ |- _ => inversion X; clear X; subst
  | X : Forall2 _ [] _ |- _ => inversion X; clear X; subst
  end.

Lemma text_of_leaf : forall t b, leaf_of t b -> string_of (Some (ABranch b)) = COk (sb t).
Proof. intros t b (l & -> & H). cbn. unfold node_text. cbn. rewrite H. reflexivity. Qed.
Lemma node_of_leaf : forall t b, leaf_of t b -> node_text (ABranch b) = COk t.
Proof. intros t b (l & -> & H). unfold node_text. cbn. rewrite H. reflexivity. Qed.
Lemma node_of_leaf1 : forall t b k, leaf_of t b -> at_name k = false -> node_text (ABranch [(k, One (ABranch b))]) = COk t.
Proof. intros t b k (l & -> & H) A. unfold node_text. cbn. rewrite A. cbn. rewrite H. reflexivity. Qed.

(** [use H nm]: the step of a rule, given what it builds. *)
Ltac use H nm b2 R := let K := fresh "K" in
  match type of H with built ?r _ ?v =>
    match goal with |- step (TRule r) ?c v ?b _ => destruct (built_step r nm _ v c b ltac:(rn) H) as (b2 & R & K) end end;
  apply K; reflexivity.

Definition named_ast (n : string) (a : ctext) : tree -> Prop := built "named" (fun b => reads_named (ABranch b) n a).
Definition atom_ast (a : ctext) : tree -> Prop := built "atom" (fun b => reads_atom (ABranch b) a).

Lemma named_bare : forall a v, nodes [nodes []; atom_ast a] v -> named_ast "" a v.
Proof.
  intros a v H. nod. unfold named_ast. opn.
  match goal with X : atom_ast _ _ |- _ => destruct (built_step "atom" "atom" _ _ (cc "named") [] ltac:(rn) X) as (b2 & R & K) end.
  exists [("atom", One (ABranch b2))]. split; [split; [|fr]|].
  - apply step_seq; [reflexivity|]. econstructor; [apply step_quant; constructor|]. econstructor; [apply K; reflexivity|constructor].
  - econstructor; [reflexivity|reflexivity|auto].
Qed.
Lemma named_name : forall t a v, nodes [nodes [nodes [word "IDENT" t; leafy (bs "=")]]; atom_ast a] v -> named_ast (sb t) a v.
Proof.
  intros t a v H. nod. unfold named_ast. opn.
  match goal with X : word _ _ _ |- _ => destruct (built_step "IDENT" "IDENT" _ _ (cc "named") [] ltac:(rn) X) as (b1 & R1 & K1) end.
  match goal with X : leafy _ _ |- _ => destruct X as (l & -> & SL) end.
  match goal with X : atom_ast _ _ |- _ => destruct (built_step "atom" "atom" _ _ (cc "named") [("IDENT", One (ABranch b1)); ("op", One (ABranch [("", One (ALeaf l))]))] ltac:(rn) X) as (b2 & R & K) end.
  exists [("IDENT", One (ABranch b1)); ("op", One (ABranch [("", One (ALeaf l))])); ("atom", One (ABranch b2))]. split; [split; [|fr]|].
  - apply step_seq; [reflexivity|]. econstructor; [apply step_quant; econstructor; [apply step_seq; [reflexivity|]|constructor]|].
    + econstructor; [apply K1; reflexivity|]. econstructor; [|constructor]. eapply step_named; [reflexivity|apply step_s; reflexivity|reflexivity].
    + econstructor; [apply K; reflexivity|constructor].
  - econstructor; [apply text_of_leaf; auto|reflexivity|auto].
Qed.

(** * Atoms *)
Definition level (n : nat) : string := match n with 0 => "term" | 1 => "term@1" | 2 => "term@2" | _ => "term@3" end.
Definition term_ast (n : nat) (c : ctext) : tree -> Prop := built (level n) (fun b => reads (ABranch b) c).
Ltac chs := match goal with X : chose _ _ _ |- _ => let tag := fresh "tag" in let c := fresh "c" in destruct X as (tag & c & -> & X) end.
Ltac tok := repeat match goal with X : leafy _ _ |- _ => let l := fresh "l" in let SL := fresh "SL" in destruct X as (l & -> & SL) end.
Ltac bst r nm ctrs b b2 R K := match goal with X : _ ?v |- _ =>
  lazymatch type of X with
  | word r _ _ => destruct (built_step r nm _ v ctrs b ltac:(rn) X) as (b2 & R & K); clear X
  | atom_ast _ _ => lazymatch r with "atom" => destruct (built_step r nm _ v ctrs b ltac:(rn) X) as (b2 & R & K); clear X end
  | named_ast _ _ _ => lazymatch r with "named" => destruct (built_step r nm _ v ctrs b ltac:(rn) X) as (b2 & R & K); clear X end
  | term_ast 0 _ _ => lazymatch r with "term" => destruct (built_step r nm _ v ctrs b ltac:(rn) X) as (b2 & R & K); clear X end
  | built r _ _ => destruct (built_step r nm _ v ctrs b ltac:(rn) X) as (b2 & R & K); clear X
  end end.

Lemma atom_rule : forall t v, chose 0 (word "IDENT" t) v -> atom_ast (CRule (sb t)) v.
Proof.
  intros t v H. chs. unfold atom_ast. opn. bst "IDENT" "IDENT" (cc "atom") [choice 0] b R K. exists [choice 0; ("IDENT", One (ABranch b))]. split; [split; [|fr]|].
  - eapply step_oneof; [reflexivity|reflexivity|apply K; reflexivity].
  - eapply ra_rule; [eexists; split; reflexivity|exists (ABranch b); split; [reflexivity|apply node_of_leaf; auto]|reflexivity].
Qed.
Lemma atom_lit : forall t x v, parse_string t = Some x -> chose 1 (word "STR" t) v -> atom_ast (CLit x) v.
Proof.
  intros t x v P H. chs. unfold atom_ast. opn. bst "STR" "STR" (cc "atom") [choice 1] b R K. exists [choice 1; ("STR", One (ABranch b))]. split; [split; [|fr]|].
  - eapply step_oneof; [reflexivity|reflexivity|apply K; reflexivity].
  - eapply ra_lit; [eexists; split; reflexivity|exists (ABranch b); split; [reflexivity|apply node_of_leaf; eauto]|auto|split; reflexivity].
Qed.
Lemma atom_re : forall t x v, parse_regexp t = Some x -> chose 2 (word "RE" t) v -> atom_ast (CRe x) v.
Proof.
  intros t x v P H. chs. unfold atom_ast. opn. bst "RE" "RE" (cc "atom") [choice 2] b R K. exists [choice 2; ("RE", One (ABranch b))]. split; [split; [|fr]|].
  - eapply step_oneof; [reflexivity|reflexivity|apply K; reflexivity].
  - eapply ra_re; [eexists; split; reflexivity|exists (ABranch b); split; [reflexivity|apply node_of_leaf; eauto]|auto|split; reflexivity].
Qed.
Lemma atom_ext : forall t v, chose 4 (nodes [leafy (bs "%%"); word "IDENT" t]) v -> atom_ast (CExt (sb t)) v.
Proof.
  intros t v H. chs. nod. tok. unfold atom_ast. opn.
  bst "IDENT" "IDENT" [("", (1, 1)); ("IDENT", (1, 1))] [("", One (ALeaf l))] b R K.
  exists [choice 4; ("ExtRef", One (ABranch [("", One (ALeaf l)); ("IDENT", One (ABranch b))]))]. split; [split; [|fr]|].
  - eapply step_oneof; [reflexivity|reflexivity|]. eapply step_named; [reflexivity| |reflexivity]. apply step_seq; [reflexivity|].
    econstructor; [apply step_cut, step_s; reflexivity|]. econstructor; [apply K; reflexivity|constructor].
  - eapply ra_ext; [eexists; split; reflexivity|reflexivity|apply text_of_leaf; auto|split; reflexivity].
Qed.
Definition ref_ast (t : bytes) (d : option bytes) : tree -> Prop :=
  built "REF" (fun b => string_of (one "IDENT" (ABranch b)) = COk (sb t) /\
                        string_of (one "default" (ABranch b)) = COk (match d with Some d => sb d | None => "" end)).
Lemma ref_plain : forall t v, nodes [leafy (bs "%"); word "IDENT" t; nodes []] v -> ref_ast t None v.
Proof.
  intros t v H. nod. tok. unfold ref_ast. opn. bst "IDENT" "IDENT" (cc "REF") [("", Many [ALeaf l])] b R K.
  exists [("", Many [ALeaf l]); ("IDENT", One (ABranch b))]. split; [split; [|fr]|].
  - apply step_seq; [reflexivity|]. econstructor; [apply step_cut, step_s; reflexivity|]. econstructor; [apply K; reflexivity|].
    econstructor; [apply step_quant; constructor|constructor].
  - split; [apply text_of_leaf; auto|reflexivity].
Qed.
Lemma ref_default : forall t d v, nodes [leafy (bs "%"); word "IDENT" t; nodes [nodes [leafy (bs "="); word "STR" d]]] v -> ref_ast t (Some d) v.
Proof.
  intros t d v H. nod. tok. unfold ref_ast. opn. bst "IDENT" "IDENT" (cc "REF") [("", Many [ALeaf l0])] b R K.
  bst "STR" "STR" [("STR", (1, 1))] (@nil (string * children anode)) b2 R2 K2.
  exists [("", Many [ALeaf l0; ALeaf l]); ("IDENT", One (ABranch b)); ("default", One (ABranch [("STR", One (ABranch b2))]))]. split; [split; [|fr]|].
  - apply step_seq; [reflexivity|]. econstructor; [apply step_cut, step_s; reflexivity|]. econstructor; [apply K; reflexivity|].
    econstructor; [|constructor]. apply step_quant. econstructor; [|constructor]. apply step_seq; [reflexivity|].
    econstructor; [apply step_s; reflexivity|]. econstructor; [|constructor].
    eapply step_named; [reflexivity|apply K2; reflexivity|reflexivity].
  - split; [apply text_of_leaf; auto|]. cbn [string_of one first_of node_one get_one lookup String.eqb Ascii.eqb Bool.eqb andb].
    change (cbind (node_text (ABranch [("STR", One (ABranch b2))])) (fun b => COk (sb b)) = COk (sb d)). rewrite (node_of_leaf1 d); auto.
Qed.
Lemma atom_ref : forall t v, chose 5 (ref_ast t None) v -> atom_ast (CRef (sb t) None) v.
Proof.
  intros t v H. chs. unfold ref_ast in H. unfold atom_ast. opn. bst "REF" "REF" (cc "atom") [choice 5] b R K. exists [choice 5; ("REF", One (ABranch b))]. split; [split; [|fr]|].
  - eapply step_oneof; [reflexivity|reflexivity|apply K; reflexivity].
  - destruct R. eapply ra_ref; [eexists; split; reflexivity|reflexivity|auto|auto|split; reflexivity].
Qed.
Lemma atom_ref_default : forall t d x v, parse_string d = Some x -> d <> [] -> chose 5 (ref_ast t (Some d)) v -> atom_ast (CRef (sb t) (Some x)) v.
Proof.
  intros t d x v P N H. chs. unfold ref_ast in H. unfold atom_ast. opn. bst "REF" "REF" (cc "atom") [choice 5] b R K. exists [choice 5; ("REF", One (ABranch b))]. split; [split; [|fr]|].
  - eapply step_oneof; [reflexivity|reflexivity|apply K; reflexivity].
  - destruct R. eapply ra_ref_default; [eexists; split; reflexivity|reflexivity|eauto|eauto| | |split; reflexivity].
    + destruct d; [congruence|discriminate].
    + rewrite bs_sb. auto.
Qed.
Lemma atom_look : forall c v, chose 6 (nodes [leafy (bs "(?="); term_ast 0 c; leafy (bs ")")]) v -> atom_ast (CLook (CSeq [c])) v.
Proof.
  intros c v H. chs. nod. tok. unfold atom_ast. opn. bst "term" "term" [("term", (1, 1))] (@nil (string * children anode)) b R K.
  exists [choice 6; ("", Many [ALeaf l0; ALeaf l]); ("lookahead", One (ABranch [("term", One (ABranch b))]))]. split; [split; [|fr]|].
  - eapply step_oneof; [reflexivity|reflexivity|]. apply step_seq; [reflexivity|]. econstructor; [apply step_cut, step_s; reflexivity|].
    econstructor; [eapply step_named; [reflexivity|apply K; reflexivity|reflexivity]|]. econstructor; [apply step_s; reflexivity|constructor].
  - eapply ra_look; [eexists; split; reflexivity|reflexivity| |split; reflexivity].
    eapply rd_seq; [reflexivity|discriminate|reflexivity|repeat constructor; auto].
Qed.
Lemma atom_group : forall c v, chose 7 (nodes [leafy (bs "("); term_ast 0 c; leafy (bs ")")]) v -> atom_ast (CGroup c) v.
Proof.
  intros c v H. chs. nod. tok. unfold atom_ast. opn. bst "term" "term" (cc "atom") [choice 7; ("", Many [ALeaf l0])] b R K.
  exists [choice 7; ("", Many [ALeaf l0; ALeaf l]); ("term", One (ABranch b))]. split; [split; [|fr]|].
  - eapply step_oneof; [reflexivity|reflexivity|]. apply step_seq; [reflexivity|]. econstructor; [apply step_s; reflexivity|].
    econstructor; [apply K; reflexivity|]. econstructor; [apply step_s; reflexivity|constructor].
  - eapply ra_group; [eexists; split; reflexivity|reflexivity|auto].
Qed.
Lemma atom_none : forall v, chose 8 (nodes [leafy (bs "("); leafy (bs ")")]) v -> atom_ast CNone v.
Proof.
  intros v H. chs. nod. tok. unfold atom_ast. opn. exists [choice 8; ("", Many [ALeaf l0; ALeaf l])]. split; [split; [|fr]|].
  - eapply step_oneof; [reflexivity|reflexivity|]. apply step_seq; [reflexivity|]. econstructor; [apply step_s; reflexivity|].
    econstructor; [apply step_s; reflexivity|constructor].
  - eapply ra_none; [eexists; split; reflexivity|split; reflexivity].
Qed.

(** * Quantifiers *)
Definition quant_ast (q : quant ctext) : tree -> Prop := built "quant" (fun b => reads_quant (ABranch b) q).
Lemma quant_op : forall c q v, In (c, q) [("*", QRep 0 0 false); ("?", QRep 0 1 false); ("+", QRep 1 0 true)] ->
  chose 0 (leafy (bs c)) v -> quant_ast q v.
Proof.
  intros c q v I H. chs. tok. unfold quant_ast. opn. exists [choice 0; ("op", One (ABranch [("", One (ALeaf l))]))]. split; [split; [|fr]|].
  - eapply step_oneof; [reflexivity|reflexivity|]. eapply step_named; [reflexivity|apply step_re; reflexivity|reflexivity].
  - assert (O : one_op (ABranch [choice 0; ("op", One (ABranch [("", One (ALeaf l))]))]) = COk (sb (bs c))).
    { unfold one_op, one_token_of. cbn. unfold node_text. cbn. rewrite SL. reflexivity. }
    destruct I as [E|[E|[E|[]]]]; inversion E; subst.
    + apply rq_star; auto.
    + apply rq_opt; auto.
    + apply rq_plus; auto.
Qed.
Definition bound_tree (t : option bytes) : tree -> Prop := match t with Some t => nodes [word "INT" t] | None => nodes [] end.
Definition bound_is (t : option bytes) (k : nat) : Prop := match t with Some t => numeral t k /\ is_int k | None => k = 0 end.
Definition bound_child (nm : string) (t : option bytes) (l : branch) : Prop :=
  match t with Some t => exists b, l = [(nm, One (ABranch [("INT", One (ABranch b))]))] /\ leaf_of t b | None => l = [] end.
Lemma bound_reads : forall nm t k l b, bound_child nm t l -> bound_is t k ->
  one nm (ABranch b) = (match l with [(_, One n)] => Some n | _ => None end) -> bound_of (one nm (ABranch b)) k.
Proof.
  intros nm t k l b C I O. rewrite O. destruct t as [t|]; cbn in *.
  - destruct C as (b2 & -> & L). exists (sb t). split.
    + change (cbind (node_text (ABranch [("INT", One (ABranch b2))])) (fun b => COk (sb b)) = COk (sb t)). rewrite (node_of_leaf1 t); auto.
    + right. rewrite bs_sb. auto.
  - subst. exists "". split; auto.
Qed.
Definition with_bound (nm : string) (l b : branch) : branch := match l with [] => b | kv :: _ => aset nm (snd kv) b end.
Lemma bound_step : forall nm t v ctrs, bound_tree t v -> ctr ctrs nm = (0, 1) -> exists l, bound_child nm t l /\
  forall b, lookup nm b = None -> step (Opt (Eq_ nm (TRule "INT"))) ctrs v b (with_bound nm l b).
Proof.
  intros nm t v ctrs H C. destruct t as [t|]; cbn [bound_tree bound_child] in *; nod.
  - bst "INT" "INT" [("INT", (1, 1))] (@nil (string * children anode)) b R K. exists [(nm, One (ABranch [("INT", One (ABranch b))]))]. split; [eauto|].
    intros b0 L. cbn [with_bound snd]. apply step_quant. econstructor; [|constructor]. eapply step_named; [reflexivity|apply K; reflexivity|].
    rewrite C. unfold badd, badd_one. rewrite L. reflexivity.
  - exists []. split; auto. intros b L. apply step_quant. constructor.
Qed.
Lemma quant_range : forall tmin tmax v mn mx, bound_is tmin mn -> bound_is tmax mx ->
  chose 1 (nodes [leafy (bs "{"); bound_tree tmin; leafy (bs ","); bound_tree tmax; leafy (bs "}")]) v ->
  quant_ast (QRep mn mx (match tmin with Some t => negb (String.eqb (sb t) "0") | None => false end)) v.
Proof.
  intros tmin tmax v mn mx Imn Imx H. chs. nod. tok. unfold quant_ast. opn.
  match goal with X : bound_tree tmin ?v |- _ => destruct (bound_step "min" tmin v (cc "quant") X eq_refl) as (lmin & Cmin & Smin) end.
  match goal with X : bound_tree tmax ?v |- _ => destruct (bound_step "max" tmax v (cc "quant") X eq_refl) as (lmax & Cmax & Smax) end.
  pose proof Cmin as Cmin'. pose proof Cmax as Cmax'.
  destruct tmin as [tmin|]; [destruct Cmin as (bmin & -> & Lmin)|cbn in Cmin; subst lmin; cbn in Imn; subst mn];
  (destruct tmax as [tmax|]; [destruct Cmax as (bmax & -> & Lmax)|cbn in Cmax; subst lmax]);
  (eexists; split;
   [split; [eapply step_oneof; [reflexivity|reflexivity|]; apply step_seq; [reflexivity|]; econstructor; [apply step_s; reflexivity|];
    econstructor; [apply Smin; reflexivity|]; econstructor; [apply step_s; reflexivity|]; econstructor; [apply Smax; reflexivity|];
    econstructor; [apply step_s; reflexivity|constructor]|cbn; fr]|]).
  - eapply rq_range; [reflexivity|reflexivity|reflexivity|reflexivity| | |].
    + change (cbind (node_text (ABranch [("INT", One (ABranch bmin))])) (fun b => COk (sb b)) = COk (sb tmin)). rewrite (node_of_leaf1 tmin); auto.
    + apply (bound_reads "min" _ _ _ [("min", One (ABranch [("INT", One (ABranch bmin))]))] Cmin' Imn). reflexivity.
    + eapply (bound_reads "max" _ _ _ _ Cmax' Imx). reflexivity.
  - eapply rq_range; [reflexivity|reflexivity|reflexivity|reflexivity| | |].
    + change (cbind (node_text (ABranch [("INT", One (ABranch bmin))])) (fun b => COk (sb b)) = COk (sb tmin)). rewrite (node_of_leaf1 tmin); auto.
    + apply (bound_reads "min" _ _ _ [("min", One (ABranch [("INT", One (ABranch bmin))]))] Cmin' Imn). reflexivity.
    + eapply (bound_reads "max" _ _ _ _ Cmax' Imx). reflexivity.
  - eapply rq_upto; [reflexivity|reflexivity|reflexivity|reflexivity|].
    eapply (bound_reads "max" _ _ _ _ Cmax' Imx). reflexivity.
  - eapply rq_upto; [reflexivity|reflexivity|reflexivity|reflexivity|].
    eapply (bound_reads "max" _ _ _ _ Cmax' Imx). reflexivity.
Qed.
Definition comma_tree (b : bool) : tree -> Prop := if b then nodes [leafy (bs ",")] else nodes [].
Definition comma_child (b : bool) (nm : string) (l : branch) : Prop :=
  if b then exists s, l = [(nm, One (ABranch [("", One (ALeaf s))]))] /\ sstring s = Some (bs ",") else l = [].
Lemma comma_step : forall nm c v ctrs, comma_tree c v -> ctr ctrs nm = (0, 1) -> exists l, comma_child c nm l /\
  forall b, lookup nm b = None -> step (Opt (Eq_ nm (S_ ","))) ctrs v b (with_bound nm l b).
Proof.
  intros nm c v ctrs H C. destruct c; cbn [comma_tree comma_child] in *; nod; tok.
  - exists [(nm, One (ABranch [("", One (ALeaf l))]))]. split; [eauto|].
    intros b0 L. cbn [with_bound snd]. apply step_quant. econstructor; [|constructor]. eapply step_named; [reflexivity|apply step_s; reflexivity|].
    rewrite C. unfold badd, badd_one. rewrite L. reflexivity.
  - exists []. split; auto. intros b L. apply step_quant. constructor.
Qed.
Lemma comma_reads : forall nm c l b, comma_child c nm l ->
  one nm (ABranch b) = (match l with [(_, One n)] => Some n | _ => None end) -> one_token_of nm (ABranch b) = COk (if c then "," else "").
Proof.
  intros nm c l b C O. unfold one_token_of. rewrite O. destruct c; cbn in C.
  - destruct C as (s & -> & H). cbn. unfold node_text. cbn. rewrite H. reflexivity.
  - subst. reflexivity.
Qed.
Lemma quant_list : forall op a name sep l r v, direction op a ->
  chose 2 (nodes [leafy (bs op); comma_tree l; named_ast name sep; comma_tree r]) v -> quant_ast (QList a name sep l r) v.
Proof.
  intros op a name sep l r v D H. chs. nod. tok. unfold quant_ast. opn.
  match goal with X : comma_tree l ?v |- _ => destruct (comma_step "opt_leading" l v (cc "quant") X eq_refl) as (l1 & C1 & S1); clear X end.
  match goal with X : comma_tree r ?v |- _ => destruct (comma_step "opt_trailing" r v (cc "quant") X eq_refl) as (l2 & C2 & S2); clear X end.
  bst "named" "named" (cc "quant") (with_bound "opt_leading" l1 [choice 2; ("op", One (ABranch [("", One (ALeaf l0))]))]) b R K.
  set (b1 := with_bound "opt_trailing" l2 (aset "named" (One (ABranch b)) (with_bound "opt_leading" l1 [choice 2; ("op", One (ABranch [("", One (ALeaf l0))]))]))).
  assert (O : forall k, one_op (ABranch (choice 2 :: ("op", One (ABranch [("", One (ALeaf l0))])) :: k)) = COk (sb (bs op))).
  { intros k. unfold one_op, one_token_of. cbn. unfold node_text. cbn. rewrite SL. reflexivity. }
  replace (QList a name sep l r) with (QList a name sep (negb (String.eqb (if l then "," else "") "")) (negb (String.eqb (if r then "," else "") "")))
    by (destruct l, r; reflexivity).
  pose proof C1 as C1'. pose proof C2 as C2'.
  exists b1. split; [split; [|unfold b1; destruct l; [destruct C1 as (s & -> & _)|cbn in C1; subst l1]; (destruct r; [destruct C2 as (s2 & -> & _)|cbn in C2; subst l2]); cbn; fr]|].
  - eapply step_oneof; [reflexivity|reflexivity|]; apply step_seq; [reflexivity|].
    econstructor; [eapply step_named; [reflexivity|apply step_re; reflexivity|reflexivity]|].
    econstructor; [apply S1; reflexivity|]. econstructor; [apply K; destruct l; [destruct C1 as (s & -> & _)|cbn in C1; subst l1]; reflexivity|].
    econstructor; [|constructor]. apply S2. destruct l; [destruct C1 as (s & -> & _)|cbn in C1; subst l1]; reflexivity.
  - rewrite sb_bs in O. eapply (rq_list _ op a (ABranch b) name sep); auto.
    + destruct l; [destruct C1 as (s & -> & _)|cbn in C1; subst l1]; (destruct r; [destruct C2 as (s2 & -> & _)|cbn in C2; subst l2]); reflexivity.
    + destruct l; [destruct C1 as (s & -> & _)|cbn in C1; subst l1]; (destruct r; [destruct C2 as (s2 & -> & _)|cbn in C2; subst l2]); apply O.
    + destruct l; [destruct C1 as (s & -> & _)|cbn in C1; subst l1]; (destruct r; [destruct C2 as (s2 & -> & _)|cbn in C2; subst l2]); reflexivity.
    + destruct l; [destruct C1 as (s & -> & _)|cbn in C1; subst l1]; (destruct r; [destruct C2 as (s2 & -> & _)|cbn in C2; subst l2]); reflexivity.
    + eapply comma_reads; [exact C1'|]. 
      destruct l; [destruct C1 as (s & -> & _)|cbn in C1; subst l1]; (destruct r; [destruct C2 as (s2 & -> & _)|cbn in C2; subst l2]); reflexivity.
    + eapply comma_reads; [exact C2'|]. 
      destruct l; [destruct C1 as (s & -> & _)|cbn in C1; subst l1]; (destruct r; [destruct C2 as (s2 & -> & _)|cbn in C2; subst l2]); reflexivity.
Qed.

(** * Levels *)
Definition put (nm : string) (n : anode) (b : branch) : branch :=
  match lookup nm b with Some (Many ns) => aset nm (Many (ns ++ [n])) b | _ => aset nm (Many [n]) b end.
Definition no_one (nm : string) (b : branch) : Prop := forall n, lookup nm b <> Some (One n).
Lemma put_badd : forall nm n b, no_one nm b -> badd_many nm n b = COk (put nm n b).
Proof. intros nm n b H. unfold badd_many, put. destruct (lookup nm b) as [[m|ns]|] eqn:L; auto. exfalso. eapply H; eauto. Qed.
Lemma aset_twice : forall (k : string) (x y : children anode) b, aset k y (aset k x b) = aset k y b.
Proof. intros k x y b. induction b as [|[k' z] b IH]; cbn [aset]; [rewrite String.eqb_refl; auto|]. destruct (String.eqb k k') eqn:E; cbn [aset]; [rewrite String.eqb_refl|rewrite E, IH]; auto. Qed.
Lemma put_no_one : forall nm n b, no_one nm (put nm n b).
Proof. intros nm n b m. unfold put. destruct (lookup nm b) as [[?|?]|]; rewrite lookup_aset_eq; discriminate. Qed.
Lemma puts_many : forall nm l ns b, lookup nm b = Some (Many ns) -> fold_left (fun b n => put nm n b) l b = aset nm (Many (ns ++ l)) b.
Proof.
  intros nm l. induction l as [|n l IH]; intros ns b L; cbn [fold_left].
  - rewrite app_nil_r. symmetry. revert L. induction b as [|[k x] b IH]; cbn [lookup aset]; [discriminate|].
    destruct (String.eqb nm k) eqn:E; [intros H; inversion H; apply String.eqb_eq in E; subst; auto|]. intros H. rewrite IH; auto.
  - unfold put at 2. rewrite L. rewrite (IH (ns ++ [n])) by apply lookup_aset_eq. rewrite aset_twice, <- app_assoc. reflexivity.
Qed.
Lemma puts_new : forall nm n l b, lookup nm b = None -> fold_left (fun b n => put nm n b) (n :: l) b = aset nm (Many (n :: l)) b.
Proof. intros nm n l b L. cbn [fold_left]. unfold put at 2. rewrite L. rewrite (puts_many nm l [n]) by apply lookup_aset_eq. rewrite aset_twice. reflexivity. Qed.

Definition is_many (c : counter) : Prop := forall nm n b, badd nm n c b = badd_many nm n b.
Lemma free_put : forall nm n b, odd_name nm = false -> free n -> free (ABranch b) -> free (ABranch (put nm n b)).
Proof.
  intros nm n b O N B. apply free_branch.
  assert (FB : Forall (fun kv : string * children anode => odd_name (fst kv) = false /\ free_child (snd kv)) b).
  { apply Forall_forall. intros [k c] I. split.
    - specialize (B b (below_refl _)). rewrite Forall_forall in B. exact (B _ I).
    - destruct c as [m|ms]; cbn [free_child snd].
      + intros b' H. apply B. eapply below_one; eauto.
      + apply Forall_forall. intros m IM b' H. apply B. eapply below_many; eauto. }
  assert (G : forall c, free_child c -> Forall (fun kv : string * children anode => odd_name (fst kv) = false /\ free_child (snd kv)) (aset nm c b)).
  { intros c FC. clear B. induction FB as [|[k d] b FK FB IH]; cbn [aset].
    - repeat constructor; auto.
    - destruct (String.eqb nm k) eqn:E; constructor; auto. }
  unfold put. destruct (lookup nm b) as [[m|ms]|] eqn:L; apply G; cbn [free_child]; try (constructor; auto; fail).
  apply Forall_app. split; [|constructor; auto]. apply lookup_In in L. rewrite Forall_forall in FB. exact (proj2 (FB _ L)).
Qed.
Lemma free_puts : forall nm l b, odd_name nm = false -> Forall free l -> free (ABranch b) -> free (ABranch (fold_left (fun b n => put nm n b) l b)).
Proof. intros nm l. induction l as [|n l IH]; intros b O F B; cbn [fold_left]; auto. inversion F; subst. apply IH; auto. apply free_put; auto. Qed.
Lemma rule_step : forall r nm ctrs R v, rule_named r nm -> is_many (ctr ctrs r) -> built r R v -> exists b2, (R b2 /\ free (ABranch b2)) /\
  forall b b', badd_many nm (ABranch b2) b = COk b' -> step (TRule r) ctrs v b b'.
Proof.
  intros r nm ctrs R v (L & C & U) M (b2 & (H0 & FR) & HR). exists b2. split; auto. intros b b' B.
  destruct (unlevel r W) as [[y lv]| |] eqn:E; try contradiction. subst y. eapply step_rule; eauto. rewrite M. auto.
Qed.
Lemma reps_walk : forall (A : Type) r nm ctrs (R : A -> branch -> Prop) xs vs, rule_named r nm -> is_many (ctr ctrs r) -> odd_name nm = false ->
  Forall2 (fun x v => built r (R x) v) xs vs -> exists bs, Forall2 R xs bs /\ ((forall b, no_one nm b ->
  walks ctrs (map (fun v => (TRule r, v)) vs) b (fold_left (fun b n => put nm n b) (map ABranch bs) b)) /\
  forall b, free (ABranch b) -> free (ABranch (fold_left (fun b n => put nm n b) (map ABranch bs) b))).
Proof.
  intros A r nm ctrs R xs vs RN M O H. induction H as [|x v xs vs H0 H IH]; [exists []; split; [constructor|split; [intros; constructor|auto]]|].
  destruct IH as (bs & F & K & FR). destruct (rule_step r nm ctrs _ v RN M H0) as (b3 & (R3 & FB) & ST).
  exists (b3 :: bs). split; [constructor; auto|]. cbn [map fold_left]. split.
  - intros b N. econstructor; [apply ST; apply put_badd; auto|]. apply K. apply put_no_one.
  - intros b B. apply FR. apply free_put; auto.
Qed.

Lemma item_ast : forall n a qs v, nodes [named_ast n a; nodes (map quant_ast qs)] v -> term_ast 3 (CLeaf n a qs) v.
Proof.
  intros n a qs v H. destruct H as (tag & vs & -> & F). inversion F; clear F; subst. inversion H3; clear H3; subst. inversion H5; clear H5; subst.
  destruct H2 as (tag2 & vs & -> & F). unfold term_ast. cbn [level]. opn.
  assert (F' : Forall2 (fun q v => built "quant" (fun b => reads_quant (ABranch b) q) v) qs vs).
  { clear - F. revert vs F. induction qs as [|q qs IH]; intros vs F; cbn [map] in F; inversion F; subst; constructor; auto. }
  destruct (reps_walk _ "quant" "quant" (cc "term@3") (fun q b => reads_quant (ABranch b) q) qs vs ltac:(rn) ltac:(intros ? ? ?; reflexivity) eq_refl F') as (bs & FB & K).
  bst "named" "named" (cc "term@3") (@nil (string * children anode)) b R K1.
  exists (fold_left (fun b n => put "quant" n b) (map ABranch bs) [("named", One (ABranch b))]). split; [split; [|apply (proj2 K); fr]|].
  - apply step_seq; [reflexivity|]. econstructor; [apply K1; reflexivity|]. econstructor; [|constructor]. apply step_quant. apply (proj1 K). intros m. discriminate.
  - assert (Q : Forall2 reads_quant (map ABranch bs) qs) by (clear - FB; induction FB; cbn [map]; constructor; auto).
    destruct (map ABranch bs) as [|m ms].
    + inversion Q; subst. eapply rd_leaf; [reflexivity|reflexivity|reflexivity|auto|constructor].
    + rewrite puts_new by reflexivity. eapply rd_leaf; [reflexivity|reflexivity|reflexivity|auto|exact Q].
Qed.
Lemma seq_ast : forall cs v, cs <> [] -> nodes (map (term_ast 3) cs) v -> term_ast 2 (CSeq cs) v.
Proof.
  intros cs v NE (tag & vs & -> & F). unfold term_ast. cbn [level]. opn.
  assert (F' : Forall2 (fun c v => built "term@3" (fun b => reads (ABranch b) c) v) cs vs).
  { clear - F. revert vs F. induction cs as [|q qs IH]; intros vs F; cbn [map] in F; inversion F; subst; constructor; auto. }
  destruct (reps_walk _ "term@3" "term" (cc "term@2") (fun c b => reads (ABranch b) c) cs vs ltac:(rn) ltac:(intros ? ? ?; reflexivity) eq_refl F') as (bs & FB & K).
  exists (fold_left (fun b n => put "term" n b) (map ABranch bs) []). split; [split; [apply step_quant; apply (proj1 K); intros m; discriminate|apply (proj2 K); fr]|].
  assert (Q : Forall2 reads (map ABranch bs) cs) by (clear - FB; induction FB; cbn [map]; constructor; auto).
  destruct (map ABranch bs) as [|m ms]; [inversion Q; congruence|].
  rewrite puts_new by reflexivity. eapply rd_seq; [reflexivity|discriminate|reflexivity|exact Q].
Qed.

Inductive alternating {A} (P : A -> tree -> Prop) (Q : tree -> Prop) : list A -> list tree -> Prop :=
| al_one : forall c v, P c v -> alternating P Q [c] [v]
| al_more : forall c cs v s vs, P c v -> Q s -> alternating P Q cs vs -> alternating P Q (c :: cs) (v :: s :: vs).
Lemma alts_2 : forall t sep vs i, alts t sep (S (S i)) vs = alts t sep i vs.
Proof. intros t sep vs. induction vs as [|v vs IH]; intros i; cbn [alts]; auto. rewrite (IH (S i)). reflexivity. Qed.
Definition state (ns ops : list anode) : branch :=
  (match ns with [] => [] | _ => [("term", Many ns)] end) ++ match ops with [] => [] | _ => [("op", Many ops)] end.
Lemma state_term : forall n ns ops, (ns = [] -> ops = []) -> badd_many "term" n (state ns ops) = COk (state (ns ++ [n]) ops).
Proof. intros n [|m ns] ops H; [rewrite H by auto; reflexivity|]. destruct ops; reflexivity. Qed.
Lemma state_op : forall n ns ops, ns <> [] -> badd_many "op" n (state ns ops) = COk (state ns (ops ++ [n])).
Proof. intros n [|m ns] ops H; [congruence|]. destruct ops; reflexivity. Qed.
Lemma alt_walk : forall (P : ctext -> tree -> Prop) op t sep ctrs,
  (forall c v, P c v -> exists n, (reads n c /\ free n) /\ forall b b', badd_many "term" n b = COk b' -> step t ctrs v b b') ->
  (forall v, leafy (bs op) v -> exists l, sstring l = Some (bs op) /\ forall b b', badd_many "op" (ABranch [("", One (ALeaf l))]) b = COk b' -> step sep ctrs v b b') ->
  forall cs vs, alternating P (leafy (bs op)) cs vs -> exists ns ls, (Forall2 reads ns cs /\ Forall free ns) /\ Forall (fun l => sstring l = Some (bs op)) ls /\ length ns = S (length ls) /\
  forall acc ops, (acc = [] -> ops = []) ->
    walks ctrs (alts t sep 0 vs) (state acc ops) (state (acc ++ ns) (ops ++ map (fun l => ABranch [("", One (ALeaf l))]) ls)).
Proof.
  intros P op t sep ctrs HP HQ cs vs H. induction H as [c v H|c cs v s vs H1 H2 H IH].
  - destruct (HP c v H) as (n & (R & FN) & K). exists [n], []. repeat split; try (repeat constructor; auto; fail). intros acc ops G. cbn [alts map]. rewrite app_nil_r.
    econstructor; [apply K; apply state_term; auto|constructor].
  - destruct (HP c v H1) as (n & (R & FN) & K). destruct (HQ s H2) as (l & SL & KS). destruct IH as (ns & ls & (F & FF) & FL & LE & KW).
    exists (n :: ns), (l :: ls). split; [split; constructor; auto|split; [constructor; auto|split; [cbn; lia|]]]. intros acc ops G. cbn [alts map].
    econstructor; [apply K; apply state_term; auto|]. econstructor; [apply KS; apply state_op; destruct acc; discriminate|]. rewrite alts_2.
    specialize (KW (acc ++ [n]) (ops ++ [ABranch [("", One (ALeaf l))]]) ltac:(destruct acc; discriminate)). rewrite <- !app_assoc in KW. exact KW.
Qed.
Lemma free_state : forall ns ls, Forall free ns -> free (ABranch (state ns (map (fun l => ABranch [("", One (ALeaf l))]) ls))).
Proof.
  intros ns ls F. apply free_branch. unfold state. apply Forall_app. split.
  - destruct ns; [constructor|]. constructor; [|constructor]. split; [reflexivity|exact F].
  - destruct ls as [|l ls]; [constructor|]. cbn [map]. constructor; [|constructor]. split; [reflexivity|]. cbn [free_child snd]. constructor; [fr|].
    apply Forall_map. apply Forall_forall. intros x _. fr.
Qed.
Lemma state_reads : forall op k, (op = ">" /\ k = CStack \/ op = "|" /\ k = CChoice) -> forall cs ns ls,
  Forall2 reads ns cs -> Forall (fun l => sstring l = Some (bs op)) ls -> length ns = S (length ls) ->
  reads (ABranch (state ns (map (fun l => ABranch [("", One (ALeaf l))]) ls))) (leveled k cs).
Proof.
  intros op k OK cs ns ls F FL LE. destruct ls as [|l ls].
  - destruct ns as [|n [|? ?]]; try discriminate. inversion F; subst. inversion H3; subst. cbn [leveled].
    eapply rd_seq; [reflexivity|discriminate|reflexivity|constructor; auto].
  - destruct ns as [|n [|n2 ns]]; try discriminate. inversion F; subst. inversion H3; subst. inversion FL; subst.
    assert (O : one_op (ABranch (state (n :: n2 :: ns) (map (fun l => ABranch [("", One (ALeaf l))]) (l :: ls)))) = COk op).
    { unfold one_op, one_token_of. cbn. unfold node_text. cbn. match goal with X : sstring l = _ |- _ => rewrite X end. cbn. rewrite sb_bs. reflexivity. }
    cbn [leveled]. destruct OK as [[-> ->]|[-> ->]]; [eapply rd_stack|eapply rd_choice]; auto; try discriminate; exact F.
Qed.
Definition listed {A} (P : A -> tree -> Prop) (Q : tree -> Prop) (cs : list A) (v : tree) : Prop :=
  exists tag vs, v = Node tag (XAssoc NonAssociative) vs /\ alternating P Q cs vs.
Lemma alternating_nonempty : forall A (P : A -> tree -> Prop) Q cs vs, (forall c, ~ P c Empty) -> ~ Q Empty -> alternating P Q cs vs -> ~ In Empty vs.
Proof.
  intros A P Q cs vs HP HQ H. induction H as [c v H|c cs v s vs H1 H2 H IH]; cbn [In].
  - intros [->|[]]. eapply HP; eauto.
  - intros [->|[->|I]]; [eapply HP; eauto|auto|auto].
Qed.
Lemma op_step : forall op ctrs, is_many (ctr ctrs "op") -> forall v, leafy (bs op) v -> exists l, sstring l = Some (bs op) /\
  forall b b', badd_many "op" (ABranch [("", One (ALeaf l))]) b = COk b' -> step (Eq_ "op" (S_ op)) ctrs v b b'.
Proof.
  intros op ctrs M v H. tok. exists l. split; auto. intros b b' B. eapply step_named; [reflexivity|apply step_s; reflexivity|rewrite M; auto].
Qed.
Lemma choice_ast : forall cs v, listed (term_ast 2) (leafy (bs "|")) cs v -> term_ast 1 (leveled CChoice cs) v.
Proof.
  intros cs v (tag & vs & -> & A). unfold term_ast. cbn [level]. opn.
  destruct (alt_walk (term_ast 2) "|" (TRule "term@2") (Eq_ "op" (S_ "|")) (cc "term@1")) with (cs := cs) (vs := vs) as (ns & ls & (F & FF) & FL & LE & K).
  - intros c v H. destruct (rule_step "term@2" "term" (cc "term@1") _ v ltac:(rn) ltac:(intros ? ? ?; reflexivity) H) as (b2 & R & K). exists (ABranch b2). auto.
  - apply op_step. intros ? ? ?. reflexivity.
  - auto.
  - eexists. split; [|eapply (state_reads "|"); eauto]. split; [|apply free_state; auto].
    apply step_delim; [reflexivity|reflexivity| |].
    + eapply alternating_nonempty; [| |exact A].
      * intros c (b & [[N H] _] & _). specialize (H (S N) ltac:(lia)). discriminate.
      * intros (l & E & _). discriminate.
    + exact (K [] [] (fun _ => eq_refl)).
Qed.
Lemma stack_ast : forall cs v, listed (fun c => nodes [term_ast 1 c; nodes []]) (leafy (bs ">")) cs v -> term_ast 0 (leveled CStack cs) v.
Proof.
  intros cs v (tag & vs & -> & A). unfold term_ast. cbn [level]. opn.
  destruct (alt_walk (fun c => nodes [term_ast 1 c; nodes []]) ">" (TSeq [TRule "term@1"; Opt (TSeq [S_ "{"; TRule "grammar"; S_ "}"])]) (Eq_ "op" (S_ ">")) (cc "term")) with (cs := cs) (vs := vs) as (ns & ls & (F & FF) & FL & LE & K).
  - intros c v H. nod. destruct (rule_step "term@1" "term" (cc "term") _ y ltac:(rn) ltac:(intros ? ? ?; reflexivity) H1) as (b2 & R & K).
    exists (ABranch b2). split; auto. intros b b' B. apply step_seq; [reflexivity|]. econstructor; [apply K; eauto|].
    econstructor; [apply step_quant; constructor|constructor].
  - apply op_step. intros ? ? ?. reflexivity.
  - auto.
  - eexists. split; [|eapply (state_reads ">"); eauto]. split; [|apply free_state; auto].
    apply step_delim; [reflexivity|reflexivity| |].
    + eapply alternating_nonempty; [| |exact A].
      * intros c (tag' & vs' & E & _). discriminate.
      * intros (l & E & _). discriminate.
    + exact (K [] [] (fun _ => eq_refl)).
Qed.

(** * Statements *)
Definition prod_ast (x : string) (c : ctext) : tree -> Prop := built "prod" (fun b => reads_prod (ABranch b) (x, [c])).
Lemma prod_reads : forall t c v, nodes [word "IDENT" t; leafy (bs "->"); nodes [term_ast 0 c]; leafy (bs ";")] v -> prod_ast (sb t) c v.
Proof.
  intros t c v H. nod. tok. unfold prod_ast. opn. bst "IDENT" "IDENT" (cc "prod") (@nil (string * children anode)) b R K.
  bst "term" "term" (cc "prod") [("IDENT", One (ABranch b)); ("", Many [ALeaf l0])] b2 R2 K2.
  exists [("IDENT", One (ABranch b)); ("", Many [ALeaf l0; ALeaf l]); ("term", Many [ABranch b2])]. split; [split; [|fr]|].
  - apply step_seq; [reflexivity|]. econstructor; [apply K; reflexivity|]. econstructor; [apply step_cut, step_s; reflexivity|].
    econstructor; [apply step_quant; econstructor; [apply K2; reflexivity|constructor]|]. econstructor; [apply step_cut, step_s; reflexivity|constructor].
  - split; [apply text_of_leaf; auto|]. repeat constructor. auto.
Qed.
Definition stmt_ast (s : statement) : tree -> Prop := built "stmt" (fun b =>
  match s with Rule x c => exists p, one "prod" (ABranch b) = Some p /\ reads_prod p (x, [c]) | Note _ => one "prod" (ABranch b) = None end).
Lemma stmt_note : forall t v, chose 0 (word "COMMENT" t) v -> stmt_ast (Note t) v.
Proof.
  intros t v H. chs. unfold stmt_ast. opn. bst "COMMENT" "COMMENT" (cc "stmt") [choice 0] b R K. exists [choice 0; ("COMMENT", One (ABranch b))]. split; [split; [|fr]|reflexivity].
  eapply step_oneof; [reflexivity|reflexivity|apply K; reflexivity].
Qed.
Lemma stmt_rule : forall x c v, chose 1 (prod_ast x c) v -> stmt_ast (Rule x c) v.
Proof.
  intros x c v H. chs. unfold stmt_ast. opn. unfold prod_ast in H. bst "prod" "prod" (cc "stmt") [choice 1] b R K. exists [choice 1; ("prod", One (ABranch b))]. split; [split; [|fr]|].
  - eapply step_oneof; [reflexivity|reflexivity|apply K; reflexivity].
  - eexists. split; [reflexivity|auto].
Qed.
Lemma grammar_reads : forall ss v tag, tag = "grammar" -> ss <> [] -> nodes (map stmt_ast ss) v -> (exists vs, v = Node tag XNone vs) ->
  exists N b, reads_grammar (ABranch b) (rules_of ss) /\ free (ABranch b) /\ forall n, (N <= n)%nat -> from_parser_node n W v = COk (b, W).
Proof.
  intros ss v tag ET NE (tag' & vs & -> & F) (vs' & E). injection E as E E2. subst tag' tag vs'.
  assert (F' : Forall2 (fun s v => stmt_ast s v) ss vs).
  { clear - F. revert vs F. induction ss as [|q qs IH]; intros vs F; cbn [map] in F; inversion F; subst; constructor; auto. }
  destruct (reps_walk _ "stmt" "stmt" (cc "grammar") _ ss vs ltac:(rn) ltac:(intros ? ? ?; reflexivity) eq_refl F') as (bs & FB & K & FR).
  specialize (K [("@rule", One (AExtra (DRule "grammar")))] ltac:(intros m; discriminate)).
  destruct (step_quant (TRule "stmt") 1 0 (cc "grammar") "grammar" XNone vs _ _ K) as [N H].
  exists N. eexists. split; [|split; [|intros n L; specialize (H n L); exact H]].
  2:{ apply FR. fr. }
  unfold reads_grammar, rules_of.
  replace (all "stmt" (ABranch (fold_left (fun b n => put "stmt" n b) (map ABranch bs) [("@rule", One (AExtra (DRule "grammar")))]))) with (map ABranch bs).
  2:{ destruct FB; [congruence|]. cbn [map]. rewrite puts_new by reflexivity. reflexivity. }
  clear - FB. induction FB as [|s b ss bs H FB IH]; cbn [map flat_map]; [constructor|]. destruct s as [x c|t].
  - destruct H as (p & -> & R). cbn [app]. constructor; auto.
  - rewrite H. exact IH.
Qed.
