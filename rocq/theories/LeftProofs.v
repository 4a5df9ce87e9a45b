From Verif Require Import Base Scanner ScannerSpec ScannerProofs Syntax Engine Resolve Compile Parse CompileProofs PegSpec PegProofs PegComplete TopProofs FlowSpec FlowProofs CutSpec ApiSpec ApiProofs DrawProofs LocalSpec LocalProofs PanicSpec ChainProofs LeftSpec.

Lemma endless_no_outcome : forall E X, endless E X ->
  (forall gs vs r t s o, peg E gs vs r t s o -> enters E X gs vs t s -> False) /\
  (forall gs vs cut r ts acc s o, peg_seq E gs vs cut r ts acc s o -> enters_seq E X gs vs ts s -> False) /\
  (forall gs vs r i ts s o, peg_alt E gs vs r i ts s o -> enters_alt E X gs vs ts s -> False) /\
  (forall gs vs r mn mx t acc s o, peg_rep E gs vs r mn mx t acc s o -> enters_rep E X gs vs mx t (length acc) s -> False).
Proof.
  intros E X EX. pose proof (proj1 (peg_deterministic E)) as D. apply peg_mutind.
  all: try (intros; match goal with H : enters _ _ _ _ _ _ |- _ => inversion H; subst; clear H; now auto end).
  - intros gs vs r x gs' t s o RB P IH N. inversion N; subst. eapply IH, EX; eauto.
  - intros gs vs cut r acc s N. inversion N.
  - intros gs vs cut cut' r t ts acc s v s1 o P IH _ Q IHQ N. inversion N; subst; auto.
    match goal with A : peg _ _ _ _ _ _ (Succ ?v2 ?s2) |- _ => pose proof (D _ _ _ _ _ _ P _ A) as Y end.
    injection Y as <- <-. auto.
  - intros gs vs cut r t ts acc s P IH N. inversion N; subst; auto.
    match goal with A : peg _ _ _ _ _ _ (Succ ?v2 ?s2) |- _ => pose proof (D _ _ _ _ _ _ P _ A) as Y end. discriminate.
  - intros gs vs cut r t ts acc s P IH N. inversion N; subst; auto.
    match goal with A : peg _ _ _ _ _ _ (Succ ?v2 ?s2) |- _ => pose proof (D _ _ _ _ _ _ P _ A) as Y end. discriminate.
  - intros gs vs r i s N. inversion N.
  - intros gs vs r i t ts s v s' P IH N. inversion N; subst; auto.
    match goal with A : peg _ _ _ _ _ _ Fail |- _ => pose proof (D _ _ _ _ _ _ P _ A) as Y end. discriminate.
  - intros gs vs r i t ts s o P IH Q IHQ N. inversion N; subst; auto.
  - intros gs vs r i t ts s P IH N. inversion N; subst; auto.
    match goal with A : peg _ _ _ _ _ _ Fail |- _ => pose proof (D _ _ _ _ _ _ P _ A) as Y end. discriminate.
  - intros gs vs r mn mx t acc s v s1 o R P IH Q IHQ N. inversion N; subst; auto.
    match goal with A : peg _ _ _ _ _ _ (Succ ?v2 ?s2) |- _ => pose proof (D _ _ _ _ _ _ P _ A) as Y end.
    injection Y as <- <-. apply IHQ. rewrite app_length, Nat.add_comm. auto.
  - intros gs vs r mn mx t acc s R P IH N. inversion N; subst; auto.
    match goal with A : peg _ _ _ _ _ _ (Succ ?v2 ?s2) |- _ => pose proof (D _ _ _ _ _ _ P _ A) as Y end. discriminate.
  - intros gs vs r mn mx t acc s R N. inversion N; subst; auto.
  - intros gs vs r mn mx t acc s R P IH N. inversion N; subst; auto.
    match goal with A : peg _ _ _ _ _ _ (Succ ?v2 ?s2) |- _ => pose proof (D _ _ _ _ _ _ P _ A) as Y end. discriminate.
Qed.

(** A parse of a rule that runs endlessly does not end. *)
Theorem endless_hangs : forall c g ps, cf_esc c = None -> compile (cf_eng c) g = COk ps -> readable g ->
  forall X, endless (cf_eng c) X -> forall r s, X [g] [] r s ->
  forall f, drawn_ok (cf_rnd c) (draws c f ps r s) ->
  fst (parse_rule c f ps r s) = RFuel \/ fst (parse_rule c f ps r s) = RPanic.
Proof.
  intros c g ps NE C RD X EX r s XR f D.
  pose proof (run_sound_drawn c NE g ps (readable_env _ _ _ C RD) f r s D) as R.
  assert (NO : forall o, ~ means (cf_eng c) g r s o).
  { intros o M. eapply (proj1 (endless_no_outcome _ X EX)); [exact M|]. now apply en_rule. }
  destruct (parse_rule c f ps r s) as [[v|e| |] s']; simpl; auto; exfalso.
  - destruct R as [R _]. eapply NO; eauto.
  - destruct e; try (destruct R as [[_ R]|[_ R]]; eapply NO; eauto; fail).
    destruct R as [_ [R _]]. eapply NO; eauto.
Qed.

Theorem endless_hangs_callable : forall c g ps, cf_esc c = None -> tame c -> compile (cf_eng c) g = COk ps -> readable g ->
  NoDup (keys g) -> callable_grammar g = true -> patterns_grammar (well_grouped (cf_eng c)) g ->
  forall X, endless (cf_eng c) X -> forall r s, in_range s -> lookup r g <> None -> X [g] [] r s ->
  forall f, drawn_ok (cf_rnd c) (draws c f ps r s) -> fst (parse_rule c f ps r s) = RFuel.
Proof.
  intros c g ps NE T C RD ND CA PA X EX r s R L XR f D.
  destruct (endless_hangs c g ps NE C RD X EX r s XR f D) as [H|H]; auto.
  exfalso. revert H. eapply plain_no_panic; eauto. apply RD.
Qed.

(** A literal at a scanner: where it matches and where it does not. *)
Lemma literal_peg : forall E g vs x s t, engine_ok E -> lookup WrapRE g = None -> re_lit_ok E x = true -> in_range s -> shows s t ->
  (forall r, t = x ++ r -> exists l s', peg E [g] vs "" (TS x) s (Succ (Leaf l) s') /\ shows s' r /\ in_range s') /\
  ((~ exists r, t = x ++ r) -> peg E [g] vs "" (TS x) s Fail).
Proof.
  intros E g vs x s t OK NW LO R S.
  destruct (literal_eat E x s t OK LO R S) as [A B]. pose proof (eat_token_spec E (group (quote_meta x)) s) as T.
  assert (TP : token_pattern (wrap_of [g]) x (group (quote_meta x)) (group (quote_meta x))) by (simpl; rewrite NW; reflexivity).
  split.
  - intros r Q. destruct (A r Q) as (l & s' & U & S1 & S2 & F & _). rewrite U in T. exists l, s'.
    split; [eapply P_lit; eauto|]. split; auto. eapply forward_range; eauto.
  - intros N. rewrite (B N) in T. eapply P_lit; eauto.
Qed.
