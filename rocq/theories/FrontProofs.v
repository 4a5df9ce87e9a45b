From Verif Require Import Base Scanner Syntax Engine Resolve Compile Parse Ast WbnfAst Walker Build Recursion RecursionSpec RecursionProofs Validate Front FrontSpec CompileProofs.

Section Check.
  Variables (rt : runtime).
  Hypothesis ok : runtime_ok rt.

  Lemma check_reports : forall fuel n, check_for_recursion rt fuel n = COk true ->
    exists d p, collect_dangers fuel n = COk d /\ cycle d p.
  Proof.
    intros fuel n H. unfold check_for_recursion in H. apply cbind_ok in H as [d [D H]].
    destruct (has_cycle _ _ _ d) as [b|] eqn:E; [|discriminate]. injection H as ->.
    destruct ok as [O1 [O2 O3]].
    destruct (no_false_alarm (rt_grow rt) (rt_ord rt) (rt_keys rt d) d O2 E) as [p P]. eauto.
  Qed.
  Lemma check_answers : forall fuel n d, collect_dangers fuel n = COk d -> exists b, check_for_recursion rt fuel n = COk b.
  Proof.
    intros fuel n d D. unfold check_for_recursion. rewrite D. cbn [cbind]. destruct ok as [O1 [O2 O3]].
    destruct (has_cycle_answers (rt_grow rt) (rt_ord rt) (rt_keys rt d) d O2 (O3 d)) as [b ->]. eauto.
  Qed.
  Lemma check_finds : forall fuel n d p, collect_dangers fuel n = COk d -> ~ In ""%string (keys d) -> cycle d p ->
    full (rt_grow rt) (length p) -> check_for_recursion rt fuel n = COk true.
  Proof.
    intros fuel n d p D N C F. unfold check_for_recursion. rewrite D. cbn [cbind]. destruct ok as [O1 [O2 O3]].
    rewrite (full_cycle_found (rt_grow rt) (rt_ord rt) (rt_keys rt d) d O1 O2 (O3 d) p N C F). reflexivity.
  Qed.
  Lemma check_accepts : forall fuel n d, collect_dangers fuel n = COk d -> (forall p, ~ cycle d p) ->
    check_for_recursion rt fuel n = COk false.
  Proof.
    intros fuel n d D N. destruct (check_answers fuel n d D) as [[] B]; auto.
    destruct (check_reports _ _ B) as [d' [p [D' P]]]. rewrite D in D'. injection D' as <-. destruct (N p P).
  Qed.
End Check.

Lemma descends_acyclic : forall d rank, descends d rank -> forall p, ~ cycle d p.
Proof.
  intros d rank DS p [_ [x C]].
  assert (H : forall a q b, chain d a q b -> rank b < rank a).
  { induction 1 as [a b [l [L I]]|a b q z [l [L I]] C' IH]; pose proof (DS _ _ _ L I); lia. }
  pose proof (H _ _ _ C). lia.
Qed.

(** What the front end does with an AST, up to the search for cycles. *)
Definition probe (E : engine) (fuel : nat) (n : anode) : option (list verror * graph * grammar) :=
  match find_defined_rules fuel n with
  | COk d0 =>
      match d_dupes d0 with
      | _ :: _ => None
      | [] => match run_validator E (d_macros d0) fuel n (mkValidator (d_names d0) []), collect_dangers fuel n, new_from_ast fuel n with
              | COk v, COk d, COk g => Some (v_err v, d, g)
              | _, _, _ => None
              end
      end
  | _ => None
  end.
Lemma probe_validate : forall E rt fuel n es d g b, probe E fuel n = Some (es, d, g) -> check_for_recursion rt fuel n = COk b ->
  validate E rt fuel n = COk (es ++ if b then [PossibleCycleDetected] else []).
Proof.
  intros E rt fuel n es d g b P C. unfold probe in P. unfold validate.
  destruct (find_defined_rules fuel n) as [d0| |]; try discriminate. cbn [cbind].
  destruct (d_dupes d0); [|discriminate].
  destruct (run_validator _ _ _ _ _) as [v| |]; try discriminate. cbn [cbind].
  destruct (collect_dangers fuel n) as [d1| |]; try discriminate. rewrite C. cbn [cbind].
  destruct (new_from_ast fuel n); try discriminate. injection P as <- _ _. reflexivity.
Qed.
Lemma probe_dangers : forall E fuel n es d g, probe E fuel n = Some (es, d, g) -> collect_dangers fuel n = COk d /\ new_from_ast fuel n = COk g.
Proof.
  intros E fuel n es d g P. unfold probe in P.
  destruct (find_defined_rules fuel n) as [d0| |]; try discriminate.
  destruct (d_dupes d0); [|discriminate].
  destruct (run_validator _ _ _ _ _) as [v| |]; try discriminate.
  destruct (collect_dangers fuel n) as [d1| |]; try discriminate.
  destruct (new_from_ast fuel n); try discriminate. now injection P as _ <- <-.
Qed.

Lemma load_text_runtime : forall rt w wbnf depth fuel txt, load_text (with_runtime rt w) wbnf depth fuel txt = load_text w wbnf depth fuel txt.
Proof. reflexivity. Qed.

Section Texts.
  Variables (w : world) (wbnf : parsers) (depth fuel : nat) (txt : bytes) (n : anode) (es : list verror) (d : graph) (g : grammar).
  Hypothesis loads : load_text w wbnf depth fuel txt = COk (inr n).
  Hypothesis probed : probe (w_engine w) fuel n = Some (es, d, g).

  Lemma text_accepted : es = [] -> (forall p, ~ cycle d p) -> forall rt, runtime_ok rt ->
    build_text (with_runtime rt w) wbnf depth fuel txt = COk (inr g).
  Proof.
    intros -> NC rt OK. unfold build_text. rewrite load_text_runtime, loads. cbn [cbind with_runtime w_engine w_runtime].
    destruct (probe_dangers _ _ _ _ _ _ probed) as [D N].
    rewrite (probe_validate _ rt _ _ _ _ _ _ probed (check_accepts rt OK _ _ _ D NC)). cbn [cbind app]. now rewrite N.
  Qed.
  Lemma text_rejected : es = [] -> ~ In ""%string (keys d) -> forall p, cycle d p -> forall rt, runtime_ok rt ->
    full (rt_grow rt) (length p) ->
    build_text (with_runtime rt w) wbnf depth fuel txt = COk (inl (Invalid [PossibleCycleDetected])).
  Proof.
    intros -> NE p C rt OK F. unfold build_text. rewrite load_text_runtime, loads. cbn [cbind with_runtime w_engine w_runtime].
    destruct (probe_dangers _ _ _ _ _ _ probed) as [D N].
    rewrite (probe_validate _ rt _ _ _ _ _ _ probed (check_finds rt OK _ _ _ _ D NE C F)). reflexivity.
  Qed.
End Texts.
