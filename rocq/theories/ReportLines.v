(** Compiled grammars and their reports; what the lines of a report say. *)
From Verif Require Import Base Scanner ScannerSpec Syntax Engine Resolve Compile Parse PegSpec CompileProofs TopProofs UnparseProofs FlowSpec FlowProofs
  Gotree GotreeSpec GotreeProofs Report ReportSpec ReportProofs ReportMade.
Local Open Scope list_scope.

(** * Grammars *)
Lemma window_reads : forall s, in_range s -> sstring s <> None.
Proof.
  intros s (o & i & n & A & B & C & D). unfold sstring, sslice. rewrite A. unfold src_slice. destruct (_ || _)%bool; [discriminate|].
  unfold go_slice. unfold blen. rewrite B, C. replace ((0 <=? Z.of_nat i) && (Z.of_nat i <=? Z.of_nat i + Z.of_nat n) && (Z.of_nat i + Z.of_nat n <=? Z.of_nat (length (origin o))))%Z%bool with true; [discriminate|].
  symmetry. rewrite !andb_true_iff, !Z.leb_le. lia.
Qed.
Lemma forward_from : forall s s', forward s s' -> in_range s.
Proof. intros s s' (o & i & n & j & W & _). exists o, i, n. exact W. Qed.
Lemma rule_legible : forall quote show c fuel ps rule inp x, tame c -> in_range inp -> rule_fault quote show c fuel ps rule inp = Some x -> legible x.
Proof.
  intros quote show c fuel ps rule inp x T R H a o M. destruct (rule_placed _ _ _ _ _ _ _ _ T R H a o M) as (s & -> & F). exists s. split; auto.
  apply window_reads. eapply forward_from; eauto.
Qed.

Lemma compiled_calm : forall demand E g ps, compile E g = COk ps -> no_stack_grammar (p_grammar ps) = true ->
  (forall r t, In (r, t) (p_grammar ps) -> mild demand t) -> Forall (fun kv => calm demand literal_regexp (snd kv)) (p_rules ps).
Proof.
  intros demand E g ps C N U. apply recompile in C; auto. set (g1 := p_grammar ps) in *. unfold compile in C. rewrite (no_stack_resolve g1) in C by (now apply no_stack_none).
  cbn [cbind] in C. apply cbind_ok in C as (rules & C & X). injection X as X. rewrite <- X. cbn [p_rules].
  unfold compile_resolved in C. apply cbind_ok in C as (g2 & P & C).
  assert (E2 : g2 = g1).
  { apply ctraverse_ok in P. clear - P N. unfold no_stack_grammar in N. revert N. induction P as [|[k t] y l l' H _ IH]; cbn [forallb]; intros N; auto.
    apply andb_true_iff in N as [N1 N2]. cbn [snd fst] in *. rewrite no_stack_prep in H by auto. cbn in H. injection H as <-. rewrite IH; auto. }
  subst g2. eapply table_calm; [exact C|]. apply Forall_forall. intros [k t] I. cbn [snd]. intros wrap rule p. apply term_calm; [|eapply U; eauto]. intros w x re W. exists w, re. auto.
Qed.

Lemma compiled_repetition : forall E g ps r t mn mx, compile E g = COk ps -> lookup r (p_grammar ps) = Some (TQuant t mn mx) ->
  exists q, lookup r (p_rules ps) = Some (PQuant r mn mx q).
Proof.
  intros E g ps r t mn mx C L. unfold compile in C. apply cbind_ok in C as (g1 & S1 & C). apply cbind_ok in C as (rules & C & X). injection X as <-. cbn [p_rules p_grammar] in *.
  unfold compile_resolved in C. apply cbind_ok in C as (g2 & P & C).
  assert (L2 : exists t', lookup r g2 = Some (TQuant t' mn mx)).
  { apply ctraverse_ok in P. clear - P L. revert L. induction P as [|[k u] y l l' H _ IH]; cbn [lookup]; intros L; [discriminate|].
    apply cbind_ok in H as (u' & H & X). injection X as <-. cbn [fst snd] in *. cbn [lookup]. destruct (String.eqb r k); auto. injection L as ->.
    cbn [prep] in H. apply cbind_ok in H as (v & _ & H). injection H as <-. eauto. }
  destruct L2 as (t' & L2). pose proof (compile_rules_lookup _ _ _ _ r C) as K. destruct (lookup r rules) as [q|]; [|congruence].
  destruct K as (u & u' & A & B & D). rewrite L2 in A. injection A as <-. inversion B; subst. cbn [term_parser] in D. apply cbind_ok in D as (p & _ & D). injection D as <-. eauto.
Qed.

Lemma quant_own : forall run why rule mn mx p sc fuel inp k acc q inp' k',
  quant_loop run fuel rule mn mx p sc invalid_cp invalid_cp inp k acc = (RErr (EParse q), inp', k') ->
  exists n, quant_fault run why fuel rule mn mx p sc invalid_cp inp k (length acc) = Some (FParse rule (quant_message mn mx n) [CSelf; CCalls]).
Proof.
  intros run why rule mn mx p sc. induction fuel as [|f IH]; intros inp k acc q inp' k' H; cbn [quant_loop quant_fault] in *;
    (destruct (Nat.eqb mx 0 || Nat.ltb (length acc) mx)%bool; [|destruct (Nat.leb mn (length acc)); [discriminate|eauto]]); [discriminate|].
  destruct (run p sc inp k) as [[[t|e| |] inp1] k1]; try discriminate.
  - apply IH in H. rewrite app_length in H. cbn [length] in H. rewrite Nat.add_1_r in H. exact H.
  - destruct (not_my_fatal e invalid_cp) eqn:F; [injection H as -> _ _; discriminate|]. destruct (Nat.leb mn (length acc)); [discriminate|eauto].
Qed.
Lemma repetition_circular : forall quote show c fuel ps r r' mn mx p inp q inp', cf_esc c = None -> lookup r (p_rules ps) = Some (PQuant r' mn mx p) ->
  parse_rule c fuel ps r inp = (RErr (EParse q), inp') -> exists x, rule_fault quote show c fuel ps r inp = Some x /\ circular x.
Proof.
  intros quote show c fuel ps r r' mn mx p inp q inp' NE L H. unfold parse_rule in H. unfold rule_fault. rewrite L in *.
  destruct (parse c fuel [p_rules ps] (PQuant r' mn mx p) empty_scope inp 0) as [[[t|e| |] inp1] k1] eqn:P; try discriminate.
  - destruct (sstring inp1) as [[|]|]; discriminate.
  - injection H as -> ->. destruct fuel as [|f]; [discriminate|]. cbn [parse fault_of] in *. unfold with_escape, escape_fault in *. rewrite NE in *.
    cbn [replace_cut empty_scope scut cp_valid invalid_cp orb Z.leb Z.compare] in *.
    apply (quant_own _ (fault_of quote show c f [p_rules ps])) in P as (n & P). cbn [length] in P. rewrite P. cbn [obind]. eexists. split; [reflexivity|].
    apply settle_circular, mentioned_here. left. reflexivity.
Qed.

(** Rules that are choices and sequences. *)
Lemma compiled_body : forall E g ps r t, compile E g = COk ps -> lookup r (p_grammar ps) = Some t -> (forall s, t <> TRule s) ->
  exists t' wrap q, prep t = COk t' /\ term_parser E t' wrap r = COk q /\ lookup r (p_rules ps) = Some q.
Proof.
  intros E g ps r t C L NR. unfold compile in C. apply cbind_ok in C as (g1 & S1 & C). apply cbind_ok in C as (rules & C & X). injection X as <-. cbn [p_rules p_grammar] in *.
  unfold compile_resolved in C. apply cbind_ok in C as (g2 & P & C).
  assert (L2 : exists t', lookup r g2 = Some t' /\ prep t = COk t').
  { apply ctraverse_ok in P. clear - P L. revert L. induction P as [|[k u] y l l' H _ IH]; cbn [lookup]; intros L; [discriminate|].
    apply cbind_ok in H as (u' & H & X). injection X as <-. cbn [fst snd] in *. cbn [lookup]. destruct (String.eqb r k); auto. injection L as ->. eauto. }
  destruct L2 as (t' & L2 & PR). pose proof (compile_rules_lookup _ _ _ _ r C) as K. destruct (lookup r rules) as [q|]; [|congruence].
  destruct K as (u & u' & A & B & D). rewrite L2 in A. injection A as <-. exists t', (lookup WrapRE g2), q. split; auto. split; auto.
  inversion B as [x NX|s x x' LX BX]; subst; auto. exfalso. destruct t; cbn in PR;
    repeat match goal with X : cbind _ _ = COk _ |- _ => let a := fresh "a" in let A := fresh "A" in apply cbind_ok in X as (a & A & X) end; try discriminate.
  now apply (NR r0).
Qed.
Lemma ctraverse_length : forall {A B} (f : A -> cres B) l ys, ctraverse f l = COk ys -> length ys = length l.
Proof. intros A B f l ys H. apply ctraverse_ok in H. induction H; cbn; auto. Qed.
Lemma oneof_own : forall run why rule sc inp ps i furthest k errors q inp' k', (forall p sc inp k, agrees (run p sc inp k) (why p sc inp k)) ->
  oneof_loop run rule i ps sc invalid_cp invalid_cp inp furthest k = (RErr (EParse q), inp', k') ->
  exists xs, length xs = length ps /\ oneof_fault run why rule ps sc invalid_cp inp k errors =
    Some (FParse rule (bs "None of the available options could be satisfied") ((errors ++ map CErr xs) ++ [CCalls])).
Proof.
  intros run why rule sc inp. induction ps as [|p ps IH]; intros i furthest k errors q inp' k' A H; cbn [oneof_loop oneof_fault] in *.
  - exists []. split; auto. cbn [map]. now rewrite app_nil_r.
  - pose proof (A p sc inp k) as G. destruct (run p sc inp k) as [[[t|e| |] inp1] k1]; try discriminate. destruct G as (y & -> & _). cbn [obind].
    destruct (not_my_fatal e invalid_cp) eqn:F; [injection H as -> _ _; discriminate|].
    destruct (IH _ _ _ (errors ++ [CErr (settle inp1 y)]) _ _ _ A H) as (xs & LX & ->). exists (settle inp1 y :: xs). cbn [length map]. split; auto.
    now rewrite <- !app_assoc.
Qed.
Lemma seq_own : forall c run why iscut rule ps ids sc inp k acc q inp' k', (forall p sc inp k, agrees (run p sc inp k) (why p sc inp k)) ->
  seq_loop c run iscut rule ids ps sc inp k acc = (RErr (EParse q), inp', k') ->
  exists x, seq_fault c run why iscut rule ids ps sc inp k = Some (FParse rule (bs "could not complete sequence") [CErr x; CCalls]).
Proof.
  intros c run why iscut rule. induction ps as [|p ps IH]; intros ids sc inp k acc q inp' k' A H; cbn [seq_loop seq_fault] in *; [discriminate|].
  pose proof (A p sc inp k) as G. destruct (run p sc inp k) as [[[t|e| |] inp1] k1]; try discriminate.
  - destruct (iscut p); [destruct (replace_cut c true sc k1) as [[[s z1] z2] k2]|]; eapply IH; eauto.
  - destruct G as (y & -> & _). destruct (is_fatal e) eqn:F; [injection H as -> _ _; discriminate|]. cbn [obind]. eauto.
Qed.
Lemma choice_report : forall quote show c E g ps fuel r ts inp q inp', compile E g = COk ps -> lookup r (p_grammar ps) = Some (TOneof ts) -> cf_esc c = None ->
  parse_rule c fuel ps r inp = (RErr (EParse q), inp') ->
  exists xs, length xs = length ts /\ rule_fault quote show c fuel ps r inp =
    Some (FParse r (bs "None of the available options could be satisfied") (map CErr xs ++ [CCalls])).
Proof.
  intros quote show c E g ps fuel r ts inp q inp' C L NE H. destruct (compiled_body _ _ _ _ _ C L) as (t' & wrap & p & PR & TP & K); [discriminate|].
  cbn [prep] in PR. apply cbind_ok in PR as (ts' & A1 & X). injection X as <-. cbn [term_parser] in TP. apply cbind_ok in TP as (qs & A2 & X). injection X as <-.
  apply ctraverse_length in A1. apply ctraverse_length in A2. unfold parse_rule in H. unfold rule_fault. rewrite K in *.
  destruct (parse c fuel [p_rules ps] (POneof r qs) empty_scope inp 0) as [[[t|e| |] inp1] k1] eqn:P; try discriminate.
  - destruct (sstring inp1) as [[|]|]; discriminate.
  - injection H as -> ->. destruct fuel as [|f]; [discriminate|]. cbn [parse fault_of] in *. unfold with_escape, escape_fault in *. rewrite NE in *.
    cbn [replace_cut empty_scope scut cp_valid invalid_cp orb Z.leb Z.compare] in *.
    apply (oneof_own _ (fault_of quote show c f [p_rules ps])) with (errors := []) in P as (xs & LX & P); [|intros; apply fault_agrees].
    change (-1)%Z with invalid_cp in *. rewrite P. cbn [obind settle app]. exists (map (settle inp') xs). split; [rewrite map_length; congruence|].
    rewrite map_app, !map_map. reflexivity.
Qed.
Lemma sequence_report : forall quote show c E g ps fuel r ts inp q inp', compile E g = COk ps -> lookup r (p_grammar ps) = Some (TSeq ts) -> cf_esc c = None ->
  parse_rule c fuel ps r inp = (RErr (EParse q), inp') ->
  exists x, rule_fault quote show c fuel ps r inp = Some (FParse r (bs "could not complete sequence") [CErr x; CCalls]).
Proof.
  intros quote show c E g ps fuel r ts inp q inp' C L NE H. destruct (compiled_body _ _ _ _ _ C L) as (t' & wrap & p & PR & TP & K); [discriminate|].
  cbn [prep] in PR. apply cbind_ok in PR as (ts' & A1 & X). injection X as <-. cbn [term_parser] in TP. apply cbind_ok in TP as (qs & A2 & X). injection X as <-.
  unfold parse_rule in H. unfold rule_fault. rewrite K in *.
  destruct (parse c fuel [p_rules ps] (PSeq r (map ident_from_term ts') qs) empty_scope inp 0) as [[[t|e| |] inp1] k1] eqn:P; try discriminate.
  - destruct (sstring inp1) as [[|]|]; discriminate.
  - injection H as -> ->. destruct fuel as [|f]; [discriminate|]. cbn [parse fault_of] in *. unfold with_escape, escape_fault in *. rewrite NE in *.
    apply (seq_own _ _ (fault_of quote show c f [p_rules ps])) in P as (x & P); [|intros; apply fault_agrees].
    rewrite P. cbn [obind settle map settle_cause]. eauto.
Qed.

(** * Lines *)
Lemma hang_in : forall a b block l, In l block -> exists p, In (p ++ l) (hang a b block).
Proof.
  intros a b [|x block] l I; [destruct I|]. cbn [hang]. destruct I as [<-|I]; [exists a; left; auto|]. exists b. right. now apply in_map.
Qed.
Lemma hang_all_in : forall blocks block l, In block blocks -> In l block -> exists p, In (p ++ l) (hang_all blocks).
Proof.
  induction blocks as [|b blocks IH]; intros block l I J; [destruct I|]. rewrite hang_all_cons. destruct I as [->|I].
  - destruct (hang_in (mark (match blocks with [] => true | _ => false end)) (rest_mark (match blocks with [] => true | _ => false end)) block l J) as (p & H).
    exists p. apply in_or_app. auto.
  - destruct (IH block l I J) as (p & H). exists p. apply in_or_app. auto.
Qed.
Lemma drawing_item : forall t u ls lu l, drawing t ls -> In u (gitems t) -> drawing u lu -> In l lu -> exists p, In (p ++ l) ls.
Proof.
  intros t u ls lu l D I DU J. inversion D as [x ts lx blocks LX F]; subst. cbn [gitems] in I.
  assert (X : exists b, In b blocks /\ drawing u b).
  { clear - F I. induction F as [|v b ts bs H _ IH]; [destruct I|]. destruct I as [->|I]; [exists b; split; [left|]; auto|]. destruct (IH I) as (b' & A & B). exists b'. split; [right|]; auto. }
  destruct X as (b & A & B). assert (b = lu).
  { destruct (print_is_drawing u) as (l0 & Q & _). apply Q in B. apply Q in DU. congruence. }
  subst b. destruct (hang_all_in _ _ _ A J) as (p & H). exists p. apply in_or_app. auto.
Qed.
Lemma drawn_one : forall t, exists ls, drawing t ls /\ forall grow, print grow t = concat (map (fun l => l ++ [nl]) ls).
Proof. intros t. destruct (print_is_drawing t) as (ls & A & B). exists ls. split; auto. now apply A. Qed.
Lemma drawing_text : forall t ls l, drawing t ls -> line_of l (gtext t) -> In l ls.
Proof. intros t ls l D (lx & L & I). inversion D as [x ts lx' blocks LX F]; subst. cbn [gtext] in L. rewrite (lines_one _ _ L _ LX) in I. apply in_or_app. auto. Qed.
Lemma print_lines : forall grow t ls, drawing t ls -> lines (nl :: print grow t) ([] :: ls ++ [[]]).
Proof.
  intros grow t ls D. rewrite (print_draws _ _ _ D). apply drawing_drawn in D as ->. change (nl :: concat (map (fun l => l ++ [nl]) (drawn t))) with ([] ++ [nl] ++ unlines (drawn t)).
  apply li_more; [intros []|]. pose proof (drawn_no_nl t) as F. induction F as [|l ls N F IH]; [apply li_last; intros []|].
  change (unlines (l :: ls)) with ((l ++ [nl]) ++ unlines ls). rewrite <- app_assoc. cbn [app]. apply (li_more l (unlines ls)); auto.
Qed.
Lemma items_of : forall items t, gitems (fold_left add_text items t) = gitems t ++ map gnew items /\ gtext (fold_left add_text items t) = gtext t.
Proof.
  induction items as [|x items IH]; intros t; cbn [fold_left map]; [now rewrite app_nil_r|]. destruct (IH (add_text t x)) as [A B]. rewrite A, B. split; [|reflexivity].
  cbn [add_text add_tree gitems]. now rewrite <- app_assoc.
Qed.
(** The lines of the text of an error with a header and items. *)
Lemma report_lines : forall grow header items,
  let t := nl :: print grow (add_tree (gnew (bs "parse failed")) (fold_left add_text items (gnew header))) in
  (forall l, line_of l header -> exists p, line_of (p ++ l) t) /\ (forall x l, In x items -> line_of l x -> exists p, line_of (p ++ l) t).
Proof.
  intros grow header items t. set (inner := fold_left add_text items (gnew header)) in *. set (outer := add_tree (gnew (bs "parse failed")) inner) in *.
  destruct (items_of items (gnew header)) as [GI GT]. fold inner in GI, GT. cbn [gitems gnew app] in GI. cbn [gtext gnew] in GT.
  destruct (drawn_one outer) as (lo & DO & _). destruct (drawn_one inner) as (li & DI & _).
  assert (UP : forall l, In l li -> exists p, line_of (p ++ l) t).
  { intros l I. destruct (drawing_item outer inner lo li l DO) as (p & H); auto; [left; reflexivity|]. exists p. exists ([] :: lo ++ [[]]). split; [now apply print_lines|].
    right. apply in_or_app. auto. }
  split.
  - intros l L. apply UP. eapply drawing_text; eauto. now rewrite GT.
  - intros x l I L. destruct (drawn_one (gnew x)) as (lx & DX & _). destruct (drawing_item inner (gnew x) li lx l DI) as (p & H); auto.
    + rewrite GI. now apply in_map.
    + eapply drawing_text; eauto.
    + destruct (UP _ H) as (q & Q). exists (q ++ p). now rewrite <- app_assoc.
Qed.

Section Telling.
  Variable grow : nat -> nat.
  Variable about : scanner -> bytes.
  Variable about_text trim : bytes -> bytes.
  Variable opaque : list nat -> bytes.
  Let text := error_text grow about about_text trim opaque.

  Lemma cause_items : forall f cs i ts, cause_texts f i cs = COk ts -> forall y, In y cs -> exists j u, f j y = COk u /\ In u ts.
  Proof.
    intros f. induction cs as [|z cs IH]; intros i ts H y I; [destruct I|]. cbn [cause_texts] in H.
    destruct (f i z) as [t| |] eqn:E; cbn in H; try discriminate. destruct (cause_texts f (S i) cs) as [l| |] eqn:E2; cbn in H; try discriminate. injection H as <-.
    destruct I as [->|I]; [exists i, t; split; [|left]; auto|]. destruct (IH _ _ E2 y I) as (j & u & A & B). exists j, u. split; [|right]; auto.
  Qed.
  Lemma text_header : forall n place rule msg cs t, text n place (FParse rule msg cs) = COk t ->
    forall l, line_of l (bs "rule(" ++ bs rule ++ bs ") - " ++ msg) -> exists p, line_of (p ++ l) t.
  Proof.
    intros [|n] place rule msg cs t H l L; [discriminate|]. unfold text in H. rewrite text_parse in H. destruct (cause_texts _ 0 cs) as [items| |]; cbn [cbind] in H; try discriminate.
    injection H as <-. now apply (report_lines grow _ items).
  Qed.
  Lemma text_item : forall n place rule msg cs t, text n place (FParse rule msg cs) = COk t -> forall y, In y cs ->
    exists u, (forall l, line_of l u -> exists p, line_of (p ++ l) t) /\
      match y with
      | CExpect w => u = bs "expect: " ++ about_text w
      | CNote w => u = w
      | CActual _ o => exists s v, o = Some s /\ error_string about_text trim s = COk v /\ u = bs "actual: " ++ v
      | CErr f => exists m place', text m place' f = COk u
      | _ => True
      end.
  Proof.
    intros [|n] place rule msg cs t H y I; [discriminate|]. unfold text in H. rewrite text_parse in H. destruct (cause_texts _ 0 cs) as [items| |] eqn:E; cbn [cbind] in H; try discriminate.
    injection H as <-. destruct (cause_items _ _ _ _ E y I) as (j & u & A & B). exists u. split; [intros l L; now apply (report_lines grow _ items) with (x := u)|].
    destruct y as [w|w|a [s|]| |f|]; auto; try (injection A as <-; reflexivity); try discriminate.
    - destruct (error_string about_text trim s) as [v| |] eqn:V; cbn in A; try discriminate. injection A as <-. eauto.
    - eauto.
  Qed.
  Lemma text_part : forall y x, part y x -> forall n place t, text n place x = COk t ->
    exists m place' u, text m place' y = COk u /\ forall l, line_of l u -> exists p, line_of (p ++ l) t.
  Proof.
    induction 1 as [x|rule msg cs x y I P IH]; intros n place t H; [exists n, place, t; split; auto; intros l L; exists []; auto|].
    destruct (text_item _ _ _ _ _ _ H _ I) as (u & A & m & place' & B). destruct (IH _ _ _ B) as (m' & place2 & v & C & D). exists m', place2, v. split; auto.
    intros l L. destruct (D l L) as (p & K). destruct (A _ K) as (q & Q). exists (q ++ p). now rewrite <- app_assoc.
  Qed.
  Lemma text_rules : forall n place x t rule msg cs, text n place x = COk t -> part (FParse rule msg cs) x ->
    forall l, line_of l (bs "rule(" ++ bs rule ++ bs ") - " ++ msg) -> exists p, line_of (p ++ l) t.
  Proof.
    intros n place x t rule msg cs H P l L. destruct (text_part _ _ P _ _ _ H) as (m & place' & u & A & B). destruct (text_header _ _ _ _ _ _ A l L) as (p & Q).
    destruct (B _ Q) as (q & R). exists (q ++ p). now rewrite <- app_assoc.
  Qed.
  Lemma text_expects : forall n place x t w, text n place x = COk t -> mentioned (CExpect w) x ->
    forall l, line_of l (bs "expect: " ++ about_text w) -> exists p, line_of (p ++ l) t.
  Proof.
    intros n place x t w H (rule & msg & cs & P & I) l L. destruct (text_part _ _ P _ _ _ H) as (m & place' & u & A & B).
    destruct (text_item _ _ _ _ _ _ A _ I) as (v & C & ->). destruct (C l L) as (p & Q). destruct (B _ Q) as (q & R). exists (q ++ p). now rewrite <- app_assoc.
  Qed.
End Telling.
