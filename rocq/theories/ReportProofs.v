(** Proofs about reports of errors. *)
From Verif Require Import Base Scanner ScannerSpec Syntax Engine Resolve Compile Parse PegSpec CompileProofs TopProofs UnparseProofs FlowSpec FlowProofs Gotree Report ReportSpec.
Local Open Scope list_scope.

(** * Faults and errors *)
Lemma settle_belongs : forall s x e, belongs x e -> belongs (settle s x) e.
Proof. intros s [rule msg cs|r|] e H; auto. Qed.
Lemma new_error_belongs : forall rule msg cs cp, belongs (FParse rule msg cs) (new_parse_error rule cp).
Proof. intros. unfold new_parse_error. destruct (cp_valid cp); cbn; eauto. Qed.

Lemma other_belongs : forall e, exists y, Some FOther = Some y /\ belongs y e.
Proof. intros. exists FOther. cbn. auto. Qed.

(** What a run and its report have to do with each other. *)
Definition agrees (o : out) (x : option fault) : Prop :=
  match o with
  | (RErr e, _, _) => exists y, x = Some y /\ belongs y e
  | _ => x = None
  end.

Lemma escape_agrees : forall c sc inp k cont cont', agrees (cont tt) (cont' tt) ->
  agrees (with_escape c sc inp k cont) (escape_fault c sc inp k cont').
Proof.
  intros c sc inp k cont cont' H. unfold escape_fault, with_escape. destruct (cf_esc c) as [e|]; auto.
  destruct (eat_regexp (cf_eng c) (esc_open e) inp 0) as [| |a b d inp1]; cbn; auto.
  destruct (esc_fn e sc inp1) as [inp2 [t|err]].
  - destruct (eat_regexp (cf_eng c) (esc_close e) inp2 0); cbn [agrees]; auto using other_belongs.
  - destruct err as [r|r z| |res t|]; cbn [agrees]; auto using other_belongs.
    destruct (eat_regexp (cf_eng c) (esc_close e) res 0); cbn [agrees]; auto using other_belongs.
Qed.

Section Agree.
  Variable c : config.
  Variable run : parser -> scope -> scanner -> nat -> out.
  Variable why : parser -> scope -> scanner -> nat -> option fault.
  Variable iscut : parser -> bool.
  Hypothesis A : forall p sc inp k, agrees (run p sc inp k) (why p sc inp k).

  Lemma seq_agrees : forall rule ps ids sc inp k acc,
    agrees (seq_loop c run iscut rule ids ps sc inp k acc) (seq_fault c run why iscut rule ids ps sc inp k).
  Proof.
    intros rule. induction ps as [|p ps IH]; intros ids sc inp k acc; cbn [seq_loop seq_fault]; [reflexivity|].
    specialize (A p sc inp k). destruct (run p sc inp k) as [[r inp'] k']. destruct r as [t|e| |]; try reflexivity.
    - destruct (iscut p); [destruct (replace_cut c true sc k') as [[[s z1] z2] k2]|]; apply IH.
    - destruct A as (y & -> & B). destruct (is_fatal e); cbn; eauto. eexists; split; eauto. apply new_error_belongs.
  Qed.
  Lemma quant_agrees : forall rule mn mx p sc prevcp mycp fuel inp k acc,
    agrees (quant_loop run fuel rule mn mx p sc prevcp mycp inp k acc) (quant_fault run why fuel rule mn mx p sc mycp inp k (length acc)).
  Proof.
    intros rule mn mx p sc prevcp mycp.
    assert (F : forall inp k acc, agrees (if Nat.leb mn (length acc) then (ROk (Node (rule_or_alt rule quantTag) XNone acc), inp, k)
        else (RErr (new_parse_error rule prevcp), inp, k))
      (if Nat.leb mn (length acc) then None else Some (FParse rule (quant_message mn mx (length acc)) [CSelf; CCalls]))).
    { intros inp k acc. destruct (Nat.leb mn (length acc)); cbn; auto. eexists; split; eauto. apply new_error_belongs. }
    induction fuel as [|f IH]; intros inp k acc; cbn [quant_loop quant_fault];
      (destruct (Nat.eqb mx 0 || Nat.ltb (length acc) mx)%bool; [|apply F]); [reflexivity|].
    specialize (A p sc inp k). destruct (run p sc inp k) as [[r inp'] k']. destruct r as [t|e| |]; try reflexivity.
    - specialize (IH inp' k' (acc ++ [t])). rewrite app_length in IH. cbn [length] in IH. rewrite Nat.add_1_r in IH. exact IH.
    - destruct A as (y & -> & B). destruct (not_my_fatal e mycp); [cbn; eauto using settle_belongs|apply F].
  Qed.
  Lemma oneof_agrees : forall rule sc prevcp mycp inp ps i furthest k errors,
    agrees (oneof_loop run rule i ps sc prevcp mycp inp furthest k) (oneof_fault run why rule ps sc mycp inp k errors).
  Proof.
    intros rule sc prevcp mycp inp. induction ps as [|p ps IH]; intros i furthest k errors; cbn [oneof_loop oneof_fault].
    - eexists; split; eauto. apply new_error_belongs.
    - specialize (A p sc inp k). destruct (run p sc inp k) as [[r inp'] k']. destruct r as [t|e| |]; try reflexivity.
      destruct A as (y & -> & B). cbn [obind]. destruct (not_my_fatal e mycp); [cbn; eauto using settle_belongs|apply IH].
  Qed.
End Agree.

Lemma fault_agrees : forall quote show c f e p sc inp k, agrees (parse c f e p sc inp k) (fault_of quote show c f e p sc inp k).
Proof.
  intros quote show c. induction f as [|f IH]; intros e p sc inp k; [reflexivity|].
  destruct p as [r t|r|r t re|r t re|r ids ps|r a cs ce p|r p|r mn mx p|r ps|i d|s|p|rules p]; cbn [parse fault_of]; auto.
  - reflexivity.
  - destruct (resolve_link e r) as [[q e']|]; [auto|reflexivity].
  - apply escape_agrees. destruct (eat_token (cf_eng c) re inp); try reflexivity. eexists; split; eauto. apply new_error_belongs.
  - apply escape_agrees. destruct (eat_token (cf_eng c) re inp); try reflexivity. eexists; split; eauto. apply new_error_belongs.
  - apply escape_agrees. apply seq_agrees. auto.
  - apply escape_agrees. specialize (IH e p sc inp k). destruct (parse c f e p sc inp k) as [[[t|er| |] inp'] k']; auto.
    destruct (delim_node r a cs ce t); auto.
  - apply escape_agrees. specialize (IH e p sc inp k). destruct (parse c f e p sc inp k) as [[[t|er| |] inp'] k']; try reflexivity.
    destruct IH as (y & -> & B). cbn; eauto using settle_belongs.
  - apply escape_agrees. destruct (replace_cut c false sc k) as [[[sc' prevcp] mycp] k']. apply (quant_agrees (parse c f e) (fault_of quote show c f e) (IH e) r mn mx p sc' prevcp mycp f inp k' []).
  - apply escape_agrees. destruct (replace_cut c false sc k) as [[[sc' prevcp] mycp] k']. apply oneof_agrees. auto.
  - apply escape_agrees. destruct (lookup i (svals sc)) as [expected|].
    + destruct (term_from_ref_val expected) as [t|]; [|reflexivity]. destruct (term_parser (cf_eng c) t None i) as [q| |]; try reflexivity.
      specialize (IH [] q sc inp k). destruct (parse c f [] q sc inp k) as [[[v|er| |] inp'] k']; try reflexivity; try exact IH.
      destruct (nodes_equal v expected); [reflexivity|]. eexists; split; [reflexivity|cbn; auto].
    + destruct d as [s|]; [|eexists; split; [reflexivity|cbn; auto]]. destruct (term_parser (cf_eng c) (TS s) None i) as [q| |]; try reflexivity.
      specialize (IH [] q sc inp k). destruct (parse c f [] q sc inp k) as [[[v|er| |] inp'] k']; try reflexivity; try exact IH.
  - apply escape_agrees. destruct (lookup s (cf_ext c)) as [fn|]; [|eexists; split; [reflexivity|apply new_error_belongs]]. destruct (fn sc inp) as [inp' [t|er]]; cbn [agrees]; auto using other_belongs.
Qed.

Lemma rule_agrees : forall quote show c fuel ps rule inp,
  match fst (parse_rule c fuel ps rule inp) with
  | RErr e => exists x, rule_fault quote show c fuel ps rule inp = Some x /\ belongs x e
  | _ => rule_fault quote show c fuel ps rule inp = None
  end.
Proof.
  intros. unfold parse_rule, rule_fault. destruct (lookup rule (p_rules ps)) as [p|]; [|reflexivity].
  pose proof (fault_agrees quote show c fuel [p_rules ps] p empty_scope inp 0) as A.
  destruct (parse c fuel [p_rules ps] p empty_scope inp 0) as [[[t|er| |] inp'] k']; cbn in *; auto.
  - destruct (sstring inp') as [[|b l]|]; try reflexivity. eexists; split; [reflexivity|cbn; eauto].
  - destruct A as (y & -> & B). cbn. eauto using settle_belongs.
Qed.

(** * Printing *)
Lemma mentioned_here : forall rule msg cs y, In y cs -> mentioned y (FParse rule msg cs).
Proof. intros rule msg cs y H. exists rule, msg, cs. split; auto. constructor. Qed.
Lemma mentioned_below : forall rule msg cs x y, In (CErr x) cs -> mentioned y x -> mentioned y (FParse rule msg cs).
Proof. intros rule msg cs x y I (r & m & l & P & J). exists r, m, l. split; auto. eapply part_cause; eauto. Qed.
Lemma mentioned_inv : forall rule msg cs y, mentioned y (FParse rule msg cs) -> In y cs \/ exists x, In (CErr x) cs /\ mentioned y x.
Proof.
  intros rule msg cs y (r & m & l & P & J). inversion P; subst; auto. right. eexists; split; eauto. exists r, m, l. auto.
Qed.

Fixpoint depth (x : fault) : nat :=
  match x with FParse _ _ cs => S (list_max (map cause_depth cs)) | _ => 1 end
with cause_depth (y : cause) : nat := match y with CErr f => depth f | _ => 0 end.
Lemma depth_below : forall rule msg cs x, In (CErr x) cs -> depth x < depth (FParse rule msg cs).
Proof.
  intros rule msg cs x H. cbn [depth]. apply le_n_S. change (depth x) with (cause_depth (CErr x)).
  induction cs as [|y cs IH]; [destruct H|]. cbn [map list_max fold_right]. change (fold_right Nat.max 0 (map cause_depth cs)) with (list_max (map cause_depth cs)).
  destruct H as [->|H]; [lia|]. specialize (IH H). lia.
Qed.

Section Printing.
  Variable grow : nat -> nat.
  Variable about : scanner -> bytes.
  Variable about_text trim : bytes -> bytes.
  Variable opaque : list nat -> bytes.
  Let text := error_text grow about about_text trim opaque.

  (** What one cause prints. *)
  Let item (n : nat) (place : list nat) (x : fault) (i : nat) (y : cause) : cres bytes :=
    match y with
    | CExpect w => COk (bs "expect: " ++ about_text w)
    | CNote w => COk w
    | CActual _ None => CPanic
    | CActual _ (Some s) => cbind (error_string about_text trim s) (fun t => COk (bs "actual: " ++ t))
    | CCalls => COk (opaque (i :: place))
    | CErr f => text n (i :: place) f
    | CSelf => text n (i :: place) x
    end.
  Lemma text_parse : forall n place rule msg cs, text (S n) place (FParse rule msg cs) =
    cbind (cause_texts (item n place (FParse rule msg cs)) 0 cs) (fun items =>
      COk (nl :: print grow (add_tree (gnew (bs "parse failed"))
              (fold_left add_text items (gnew (bs "rule(" ++ bs rule ++ bs ") - " ++ msg)))))).
  Proof. reflexivity. Qed.

  Lemma causes_ok : forall f cs i ts, cause_texts f i cs = COk ts -> forall y, In y cs -> exists j t, f j y = COk t.
  Proof.
    intros f. induction cs as [|z cs IH]; intros i ts H y I; [destruct I|]. cbn [cause_texts] in H.
    destruct (f i z) as [t| |] eqn:E; cbn in H; try discriminate. destruct (cause_texts f (S i) cs) as [l| |] eqn:E2; cbn in H; try discriminate.
    destruct I as [->|I]; eauto.
  Qed.
  Lemma causes_total : forall f cs i, (forall j y, In y cs -> exists t, f j y = COk t) -> exists ts, cause_texts f i cs = COk ts.
  Proof.
    intros f. induction cs as [|z cs IH]; intros i H; cbn [cause_texts]; [eauto|].
    destruct (H i z) as (t & ->); [left; auto|]. cbn. destruct (IH (S i)) as (l & ->); [intros; apply H; right; auto|]. cbn. eauto.
  Qed.
  Lemma causes_safe : forall f cs i, (forall j y, In y cs -> f j y <> CPanic) -> cause_texts f i cs <> CPanic.
  Proof.
    intros f. induction cs as [|z cs IH]; intros i H; cbn [cause_texts]; [discriminate|].
    pose proof (H i z (or_introl eq_refl)). destruct (f i z) as [t| |]; cbn; try congruence.
    specialize (IH (S i) (fun j y I => H j y (or_intror I))). destruct (cause_texts f (S i) cs); cbn; congruence.
  Qed.
  Lemma causes_more : forall f g cs i ts, (forall j y t, In y cs -> f j y = COk t -> g j y = COk t) -> cause_texts f i cs = COk ts -> cause_texts g i cs = COk ts.
  Proof.
    intros f g. induction cs as [|z cs IH]; intros i ts H E; cbn [cause_texts] in *; auto.
    destruct (f i z) as [t| |] eqn:F; cbn in E; try discriminate. destruct (cause_texts f (S i) cs) as [l| |] eqn:E2; cbn in E; try discriminate.
    rewrite (H i z t (or_introl eq_refl) F). cbn [cbind]. rewrite (IH (S i) l); auto. intros j y u I. apply H. right; auto.
  Qed.

  Lemma circular_never : forall n place x, circular x -> forall t, text n place x <> COk t.
  Proof.
    induction n as [|n IH]; intros place x C t; [discriminate|]. destruct x as [rule msg cs|s|].
    - rewrite text_parse. destruct (cause_texts _ 0 cs) as [l| |] eqn:E; cbn; try discriminate. exfalso.
      pose proof (causes_ok _ _ _ _ E) as K. destruct (mentioned_inv _ _ _ _ C) as [I|(x & I & M)].
      + destruct (K _ I) as (j & u & H). cbn in H. now apply IH in H.
      + destruct (K _ I) as (j & u & H). cbn in H. now apply IH in H.
    - destruct C as (r & m & l & P & _). inversion P.
    - destruct C as (r & m & l & P & _). inversion P.
  Qed.
  Lemma legible_below : forall rule msg cs x, legible (FParse rule msg cs) -> In (CErr x) cs -> legible x.
  Proof. intros rule msg cs x L I a o M. eapply L, mentioned_below; eauto. Qed.
  Lemma legible_safe : forall n place x, legible x -> text n place x <> CPanic.
  Proof.
    induction n as [|n IH]; intros place x L; [discriminate|]. destruct x as [rule msg cs|s|]; try discriminate.
    rewrite text_parse. destruct (cause_texts _ 0 cs) as [l| |] eqn:E; cbn; try discriminate. exfalso. revert E. apply causes_safe.
    intros j y I. destruct y as [w|w|a o| |f|]; cbn; try discriminate.
    - destruct (L a o) as (s & -> & R); [apply mentioned_here; auto|]. unfold error_string. destruct (sstring s); cbn; congruence.
    - apply IH. eapply legible_below; eauto.
    - apply IH; auto.
  Qed.
  Lemma circular_diverges : forall n place x, circular x -> legible x -> text n place x = CDiv.
  Proof.
    intros n place x C L. pose proof (circular_never n place x C) as A. pose proof (legible_safe n place x L) as B.
    destruct (text n place x) as [t| |]; auto; [now destruct (A t)|congruence].
  Qed.
  Lemma prints : forall n place x, depth x <= n -> ~ circular x -> legible x -> exists t, text n place x = COk t.
  Proof.
    induction n as [|n IH]; intros place x D C L; [destruct x; cbn in D; lia|]. destruct x as [rule msg cs|s|]; [|cbn; eauto|cbn; eauto].
    rewrite text_parse. destruct (causes_total (item n place (FParse rule msg cs)) cs 0) as (ts & ->); [|cbn; eauto].
    intros j y I. destruct y as [w|w|a o| |f|]; cbn; eauto.
    - destruct (L a o) as (s & -> & R); [apply mentioned_here; auto|]. unfold error_string. destruct (sstring s); [cbn; eauto|congruence].
    - apply IH; [pose proof (depth_below rule msg _ _ I); lia|intros X; apply C; eapply mentioned_below; eauto|eapply legible_below; eauto].
    - exfalso. apply C, mentioned_here; auto.
  Qed.
  Lemma more_fuel : forall n m place x t, n <= m -> text n place x = COk t -> text m place x = COk t.
  Proof.
    induction n as [|n IH]; intros m place x t LE H; [discriminate|]. destruct m as [|m]; [lia|]. destruct x as [rule msg cs|s|]; auto.
    rewrite text_parse in *. destruct (cause_texts (item n place _) 0 cs) as [l| |] eqn:E; cbn in H; try discriminate.
    erewrite causes_more; [exact H| |exact E]. intros j y u I F. destruct y as [w|w|a o| |f|]; cbn in *; auto; apply IH; auto; lia.
  Qed.
End Printing.

(** * Settled scanners *)
Lemma settle_mentioned : forall s x y, mentioned y (settle s x) -> exists z, mentioned z x /\ y = settle_cause s z.
Proof.
  intros s x. remember (depth x) as n eqn:E. assert (LE : depth x <= n) by lia. clear E. revert x LE.
  induction n as [|n IH]; intros x LE y M; [destruct x; cbn in LE; lia|]. destruct x as [rule msg cs|r|].
  - cbn [settle] in M. apply mentioned_inv in M as [I|(x & I & M)].
    + apply in_map_iff in I as (z & <- & I). exists z. split; auto. apply mentioned_here; auto.
    + apply in_map_iff in I as (z & E & I). destruct z as [w|w|a [s0|]| |f|]; try discriminate. cbn [settle_cause] in E. injection E as <-.
      destruct (IH f) with (y := y) as (z & M' & ->); auto; [pose proof (depth_below rule msg _ _ I); lia|].
      exists z. split; auto. eapply mentioned_below; eauto.
  - destruct M as (a & b & l & P & _). inversion P.
  - destruct M as (a & b & l & P & _). inversion P.
Qed.
Lemma mentioned_settle : forall s x y, mentioned y x -> mentioned (settle_cause s y) (settle s x).
Proof.
  intros s x y (r & m & l & P & J). remember (FParse r m l) as w eqn:E. revert E. induction P as [x|rule msg cs x w I P IH]; intros ->.
  - cbn [settle]. apply mentioned_here, in_map. auto.
  - cbn [settle]. eapply mentioned_below; [|apply IH; auto]. change (CErr (settle s x)) with (settle_cause s (CErr x)). now apply in_map.
Qed.
Lemma settle_circular : forall s x, circular (settle s x) <-> circular x.
Proof.
  intros s x. split; intros H.
  - apply settle_mentioned in H as (z & M & E). destruct z as [w|w|a [s0|]| |f|]; try discriminate. auto.
  - apply (mentioned_settle s) in H. auto.
Qed.

(** [placed s x]: the scanners shown are at or before the failures, if those that are still open end as [s]. *)
Definition placed (s : scanner) (x : fault) : Prop :=
  forall a o, mentioned (CActual a o) x -> match o with Some s' => forward s' a | None => forward s a end.
Lemma placed_settle : forall s s' x, placed s x -> placed s' (settle s x).
Proof.
  intros s s' x H a o M. apply settle_mentioned in M as (z & M & E). destruct z as [w|w|a0 [s0|]| |f|]; try discriminate; cbn in E; injection E as -> ->.
  - apply (H _ _ M). - apply (H _ _ M).
Qed.
Lemma placed_back : forall s s' x, forward s' s -> placed s x -> placed s' x.
Proof. intros s s' x F H a o M. specialize (H a o M). destruct o; auto. eapply forward_trans; eauto. Qed.
Lemma placed_none : forall s rule msg cs, (forall a o, ~ In (CActual a o) cs) -> (forall x, In (CErr x) cs -> placed s x) -> placed s (FParse rule msg cs).
Proof. intros s rule msg cs N H a o M. apply mentioned_inv in M as [I|(x & I & M)]; [now apply N in I|]. apply (H x I); auto. Qed.
Lemma placed_other : forall s, placed s FOther.
Proof. intros s a o (r & m & l & P & _). inversion P. Qed.

Definition shows_well (o : out) (x : option fault) : Prop :=
  match o, x with (RErr _, inp', _), Some y => placed inp' y | _, _ => True end.
Lemma escape_well : forall c sc inp k cont cont', shows_well (cont tt) (cont' tt) ->
  shows_well (with_escape c sc inp k cont) (escape_fault c sc inp k cont').
Proof.
  intros c sc inp k cont cont' H. unfold escape_fault, with_escape. destruct (cf_esc c) as [e|]; auto.
  destruct (eat_regexp (cf_eng c) (esc_open e) inp 0) as [| |a b d inp1]; cbn; auto.
  destruct (esc_fn e sc inp1) as [inp2 [t|err]].
  - destruct (eat_regexp (cf_eng c) (esc_close e) inp2 0); cbn; auto using placed_other.
  - destruct err as [r|r z| |res t|]; cbn; auto using placed_other.
    destruct (eat_regexp (cf_eng c) (esc_close e) res 0); cbn; auto using placed_other.
Qed.

Section Well.
  Variable c : config.
  Variable run : parser -> scope -> scanner -> nat -> out.
  Variable why : parser -> scope -> scanner -> nat -> option fault.
  Variable iscut : parser -> bool.
  Hypothesis F : forall p sc s k, in_range s -> forall res s' k', run p sc s k = (res, s', k') -> res <> RPanic -> res <> RFuel -> forward s s'.
  Hypothesis W : forall p sc inp k, in_range inp -> shows_well (run p sc inp k) (why p sc inp k).

  Lemma seq_well : forall rule ps ids sc inp k acc, in_range inp ->
    shows_well (seq_loop c run iscut rule ids ps sc inp k acc) (seq_fault c run why iscut rule ids ps sc inp k).
  Proof.
    intros rule. induction ps as [|p ps IH]; intros ids sc inp k acc R; cbn [seq_loop seq_fault]; [exact Logic.I|].
    pose proof (F p sc inp k R) as G. specialize (W p sc inp k R). destruct (run p sc inp k) as [[r inp'] k']. specialize (G r inp' k' eq_refl).
    destruct r as [t|e| |]; try exact Logic.I.
    - assert (R' : in_range inp') by (eapply forward_range, G; discriminate).
      destruct (iscut p); [destruct (replace_cut c true sc k') as [[[s z1] z2] k2]|]; apply IH; auto.
    - destruct (is_fatal e); auto. destruct (why p sc inp k) as [y|]; [|exact Logic.I]. cbn. apply placed_none.
      + intros a o [X|[X|[]]]; discriminate.
      + intros x [X|[X|[]]]; [|discriminate]. injection X as <-. eapply placed_back; [|exact W]. apply G; discriminate.
  Qed.
  Lemma quant_well : forall rule mn mx p sc prevcp mycp fuel inp k acc, in_range inp ->
    shows_well (quant_loop run fuel rule mn mx p sc prevcp mycp inp k acc) (quant_fault run why fuel rule mn mx p sc mycp inp k (length acc)).
  Proof.
    intros rule mn mx p sc prevcp mycp.
    assert (E : forall inp k acc, shows_well (if Nat.leb mn (length acc) then (ROk (Node (rule_or_alt rule quantTag) XNone acc), inp, k)
        else (RErr (new_parse_error rule prevcp), inp, k))
      (if Nat.leb mn (length acc) then None else Some (FParse rule (quant_message mn mx (length acc)) [CSelf; CCalls]))).
    { intros inp k acc. destruct (Nat.leb mn (length acc)); cbn; auto. apply placed_none; [intros a o [X|[X|[]]]; discriminate|intros x [X|[X|[]]]; discriminate]. }
    induction fuel as [|f IH]; intros inp k acc R; cbn [quant_loop quant_fault];
      (destruct (Nat.eqb mx 0 || Nat.ltb (length acc) mx)%bool; [|apply E]); [exact Logic.I|].
    pose proof (F p sc inp k R) as G. specialize (W p sc inp k R). destruct (run p sc inp k) as [[r inp'] k']. specialize (G r inp' k' eq_refl).
    destruct r as [t|e| |]; try exact Logic.I.
    - assert (R' : in_range inp') by (eapply forward_range, G; discriminate).
      specialize (IH inp' k' (acc ++ [t]) R'). rewrite app_length in IH. cbn [length] in IH. rewrite Nat.add_1_r in IH. exact IH.
    - destruct (not_my_fatal e mycp); [|apply E]. destruct (why p sc inp k) as [y|]; [|exact Logic.I]. cbn. eapply placed_settle; eauto.
  Qed.
  Lemma oneof_well : forall rule sc prevcp mycp inp, in_range inp -> forall ps i furthest k errors,
    (forall y, In y errors -> exists x, y = CErr x /\ forall s, placed s x) ->
    shows_well (oneof_loop run rule i ps sc prevcp mycp inp furthest k) (oneof_fault run why rule ps sc mycp inp k errors).
  Proof.
    intros rule sc prevcp mycp inp R. induction ps as [|p ps IH]; intros i furthest k errors E; cbn [oneof_loop oneof_fault].
    - cbn. apply placed_none.
      + intros a o I. apply in_app_or in I as [I|[I|[]]]; [|discriminate]. destruct (E _ I) as (x & X & _). discriminate.
      + intros x I. apply in_app_or in I as [I|[I|[]]]; [|discriminate]. destruct (E _ I) as (x' & X & H). injection X as <-. auto.
    - specialize (W p sc inp k R). destruct (run p sc inp k) as [[r inp'] k']. destruct r as [t|e| |]; try exact Logic.I.
      destruct (why p sc inp k) as [y|]; cbn [obind].
      + assert (P : forall s, placed s (settle inp' y)) by (intros; apply placed_settle; auto).
        destruct (not_my_fatal e mycp); [cbn; auto|]. apply IH. intros z I. apply in_app_or in I as [I|[<-|[]]]; eauto.
      + unfold shows_well. now destruct (if not_my_fatal e mycp then _ else _) as [[[]]].
  Qed.
End Well.

Lemma fault_well : forall quote show c, tame c -> forall f e p sc inp k, in_range inp ->
  shows_well (parse c f e p sc inp k) (fault_of quote show c f e p sc inp k).
Proof.
  intros quote show c T. induction f as [|f IH]; intros e p sc inp k R; [exact Logic.I|].
  assert (G : forall e p sc s k, in_range s -> forall res s' k', parse c f e p sc s k = (res, s', k') -> res <> RPanic -> res <> RFuel -> forward s s')
    by (intros; eapply parse_moves_forward; eauto).
  assert (TOK : forall rule w, placed inp (FParse rule [] [CExpect w; CActual inp None; CCalls])).
  { intros rule w a o M. apply mentioned_inv in M as [[X|[X|[X|[]]]]|(x & [X|[X|[X|[]]]] & _)]; try discriminate. injection X as <- <-. now apply forward_refl. }
  destruct p as [r t|r|r t re|r t re|r ids ps|r a cs ce p|r p|r mn mx p|r ps|i d|s|p|rules p]; cbn [parse fault_of]; auto.
  - exact Logic.I.
  - destruct (resolve_link e r) as [[q e']|]; [auto|exact Logic.I].
  - apply escape_well. destruct (eat_token (cf_eng c) re inp); try exact Logic.I. apply TOK.
  - apply escape_well. destruct (eat_token (cf_eng c) re inp); try exact Logic.I. apply TOK.
  - apply escape_well. apply seq_well; auto. exact (G e).
  - apply escape_well. specialize (IH e p sc inp k R). destruct (parse c f e p sc inp k) as [[[t|er| |] inp'] k']; try exact Logic.I; try exact IH.
    destruct (delim_node r a cs ce t); exact Logic.I.
  - apply escape_well. specialize (IH e p sc inp k R). destruct (parse c f e p sc inp k) as [[[t|er| |] inp'] k']; try exact Logic.I.
    destruct (fault_of quote show c f e p sc inp k) as [y|]; [|exact Logic.I]. cbn. eapply placed_settle; eauto.
  - apply escape_well. destruct (replace_cut c false sc k) as [[[sc' prevcp] mycp] k'].
    apply (quant_well (parse c f e) (fault_of quote show c f e)) with (acc := []); auto. exact (G e).
  - apply escape_well. destruct (replace_cut c false sc k) as [[[sc' prevcp] mycp] k']. apply oneof_well; auto. intros y [].
  - apply escape_well. destruct (lookup i (svals sc)) as [expected|].
    + destruct (term_from_ref_val expected) as [t|]; [|exact Logic.I]. destruct (term_parser (cf_eng c) t None i) as [q| |]; try exact Logic.I.
      specialize (IH [] q sc inp k R). destruct (parse c f [] q sc inp k) as [[[v|er| |] inp'] k']; try exact Logic.I; try exact IH.
      destruct (nodes_equal v expected); [exact Logic.I|]. cbn. apply placed_none; [intros a o [X|[X|[X|[]]]]; discriminate|intros x [X|[X|[X|[]]]]; discriminate].
    + destruct d as [s|]; [|cbn; apply placed_none; [intros a o [X|[]]; discriminate|intros x [X|[]]; discriminate]].
      destruct (term_parser (cf_eng c) (TS s) None i) as [q| |]; try exact Logic.I.
      specialize (IH [] q sc inp k R). destruct (parse c f [] q sc inp k) as [[[v|er| |] inp'] k']; try exact Logic.I; exact IH.
  - apply escape_well. destruct (lookup s (cf_ext c)) as [fn|]; [|cbn; apply placed_none; [intros a o [X|[]]; discriminate|intros x [X|[]]; discriminate]].
    destruct (fn sc inp) as [inp' [t|er]]; cbn; auto using placed_other.
Qed.

Lemma rule_placed : forall quote show c fuel ps rule inp x, tame c -> in_range inp ->
  rule_fault quote show c fuel ps rule inp = Some x ->
  forall a o, mentioned (CActual a o) x -> exists s, o = Some s /\ forward s a.
Proof.
  intros quote show c fuel ps rule inp x T R H a o M. unfold rule_fault in H. destruct (lookup rule (p_rules ps)) as [p|]; [|discriminate].
  pose proof (fault_well quote show c T fuel [p_rules ps] p empty_scope inp 0 R) as W.
  destruct (parse c fuel [p_rules ps] p empty_scope inp 0) as [[[t|er| |] inp'] k']; try discriminate.
  - destruct (sstring inp') as [[|b l]|]; try discriminate. injection H as <-. destruct M as (r & m & l' & P & _). inversion P.
  - destruct (fault_of quote show c fuel [p_rules ps] p empty_scope inp 0) as [y|]; [|discriminate]. cbn in H. injection H as <-.
    apply settle_mentioned in M as (z & M & E). destruct z as [w|w|a0 [s0|]| |f|]; try discriminate; cbn in E; injection E as -> ->.
    + exists s0. split; auto. apply (W _ _ M).
    + exists inp'. split; auto. apply (W _ _ M).
Qed.
