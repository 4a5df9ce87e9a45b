(** More fuel does not change what the conversion of a tree and the parse of a grammar text return. *)
From Verif Require Import Base Scanner Syntax Resolve Engine Compile Parse FuelProofs WbnfGrammar Ast AstProofs Front Walker Build Recursion Validate.
Local Open Scope string_scope.
Local Open Scope list_scope.

Lemma each_mono : forall B (f g : nat -> tree -> B -> cres B), (forall i c b b', f i c b = COk b' -> g i c b = COk b') ->
  forall cs i b b', each f i cs b = COk b' -> each g i cs b = COk b'.
Proof.
  intros B f g H. induction cs as [|c cs IH]; intros i b b' E; cbn [each] in *; auto. apply cbind_inv in E as (b1 & E1 & E). rewrite (H _ _ _ _ E1). cbn [cbind]. auto.
Qed.
Lemma from_node_mono : forall f ot ctrs e st o, from_node f ot ctrs e st = COk o -> forall f', f <= f' -> from_node f' ot ctrs e st = COk o.
Proof.
  induction f as [|f IH]; intros ot ctrs e st o H f' L; [discriminate|]. destruct f' as [|f']; [lia|]. assert (L' : f <= f') by lia.
  assert (G : forall ot ctrs e st o, from_node f ot ctrs e st = COk o -> from_node f' ot ctrs e st = COk o) by (intros; eapply IH; eauto).
  clear IH L. cbn [from_node] in *. destruct st as [b g]. destruct ot as [t|]; [|discriminate].
  destruct t as [r|x|x|i d|x|ts|ts|ts|t sep a ld tr|t|t mn mx|n t|t nested|t]; auto.
  - apply cbind_inv in H as (cc & C & H). rewrite C. cbn [cbind]. apply cbind_inv in H as (ul & U & H). rewrite U. cbn [cbind].
    apply cbind_inv in H as ([b2 g2] & H1 & H). rewrite (G _ _ _ _ _ H1). exact H.
  - destruct e as [tag ex cs|l|]; auto. apply cbind_inv in H as ([b2 g2] & H1 & H).
    rewrite (each_mono _ _ (fun _ c st => from_node f' (Some (TREF i d)) ctrs c st) (fun _ c b1 b' E => G _ _ _ _ _ E) _ _ _ _ H1). exact H.
  - destruct e as [tag ex cs|l|]; auto. revert H. apply each_mono. intros i c b1 b' E. destruct (nth_error ts i); [auto|discriminate].
  - destruct e as [tag ex cs|l|]; auto. destruct ex; auto. apply cbind_inv in H as (b1 & B1 & H). rewrite B1. cbn [cbind].
    destruct (nth_error ts _); [|discriminate]. destruct cs; [discriminate|]. auto.
  - destruct e as [tag ex cs|l|]; auto. destruct ex; auto. revert H. apply each_mono. intros i c b1 b' E. destruct c as [tg xx cc|l|]; auto.
    + destruct (term_same _ _) as [[]|]; auto. apply cbind_inv in E as (c0 & C & E). rewrite C. cbn [cbind].
      apply cbind_inv in E as (c2 & C2 & E). rewrite C2. cbn [cbind]. apply cbind_inv in E as ([b2 g2] & E2 & E). rewrite (G _ _ _ _ _ E2). exact E.
    + destruct (term_same _ _) as [[]|]; auto.
  - destruct e as [tag ex cs|l|]; auto. revert H. apply each_mono. intros i c b1 b' E. auto.
  - destruct e as [tag ex cs|l|]; auto. revert H. apply each_mono. intros i c b1 b' E. auto.
  - apply cbind_inv in H as (cc & C & H). rewrite C. cbn [cbind].
    apply cbind_inv in H as ([b2 g2] & H1 & H). rewrite (G _ _ _ _ _ H1). exact H.
Qed.
Lemma from_parser_mono : forall f f' g v o, f <= f' -> from_parser_node f g v = COk o -> from_parser_node f' g v = COk o.
Proof.
  intros f f' g v o L H. unfold from_parser_node in *. destruct v as [tag ex cs|l|]; auto. apply cbind_inv in H as (c & C & H). rewrite C. cbn [cbind].
  eapply from_node_mono; eauto.
Qed.
Lemma parse_rule_mono : forall c f f' ps r s, f <= f' -> fst (parse_rule c f ps r s) <> RFuel -> parse_rule c f' ps r s = parse_rule c f ps r s.
Proof.
  intros c f f' ps r s L F. unfold parse_rule in *. destruct (lookup r (p_rules ps)) as [q|]; auto.
  assert (X : finished (parse c f [p_rules ps] q empty_scope s 0)).
  { unfold finished, out_res. destruct (parse c f [p_rules ps] q empty_scope s 0) as [[[]]]; cbn in *; congruence. }
  rewrite (parse_mono c f f' _ L _ _ _ _ X). reflexivity.
Qed.
Theorem parse_text_mono : forall w wbnf f f' file x r, f <= f' -> parse_text w wbnf f file x = COk r -> parse_text w wbnf f' file x = COk r.
Proof.
  intros w wbnf f f' file x r L H. unfold parse_text in *.
  destruct (parse_rule (mkConfig (w_engine w) [] None (w_rnd w)) f wbnf "grammar" (mkScanner (Some (mkSource x file)) 0 (blen x))) as [o s'] eqn:E.
  rewrite (parse_rule_mono _ f f') by (auto; rewrite E; destruct o; discriminate). rewrite E. destruct o; auto.
  apply cbind_inv in H as ([b g2] & F & H). rewrite (from_parser_mono _ _ _ _ _ L F). exact H.
Qed.
(** The walk, for callbacks that do not depend on the fuel. *)
Theorem walk_mono : forall St (enter exit : kind -> anode -> St -> cres (option stopper * St)) f f' k n st r, f <= f' ->
  walk enter exit f k n st = COk r -> walk enter exit f' k n st = COk r.
Proof.
  intros St enter exit. induction f as [|f IH]; intros f' k n st r L H; [discriminate|]. destruct f' as [|f']; [lia|]. assert (L' : f <= f') by lia.
  cbn [walk] in *. apply cbind_inv in H as ([s st1] & -> & H). cbn [cbind] in *. destruct (leaf_kind k); auto. destruct (reaction s); auto.
  apply cbind_inv in H as (c & C & H).
  assert (CH : forall l st c, walk_children (walk enter exit f) l st = COk c -> walk_children (walk enter exit f') l st = COk c).
  { induction l as [|[k1 n1] l IHl]; intros st0 c0 C0; cbn [walk_children] in *; auto. apply cbind_inv in C0 as ([s2 st2] & E2 & C0).
    rewrite (IH f' _ _ _ _ L' E2). cbn [cbind]. destruct (reaction s2); auto. }
  rewrite (CH _ _ _ C). exact H.
Qed.
