(** Property C46: what the generated walker visits, and what its stoppers stop. *)
From Verif Require Import Base Scanner Syntax Engine Resolve Ast WbnfAst Walker WalkerSpec WalkerProofs Front FrontDemo.

(** C46: for every tree, every set of nodes the enter callback asks to leave and every effect of the
    callbacks, the walk calls them in depth-first order, skipping the subtrees to be left; the children of a node are those that the grammar
    of wbnf names for it, in alphabetical order ... *)
Theorem C46_depth_first : forall (St : Type) (stop : kind -> anode -> bool) (act : St -> event -> St) fuel k n st, height n < fuel ->
  exists evs, tour stop k n evs /\ walk (entering stop act) (leaving act) fuel k n st = COk (None, fold_left act evs st).
Proof. intros St. exact walk_tour. Qed.
Print Assumptions C46_depth_first.

(** ... which is a definite order ... *)
Theorem C46_tour_unique : forall stop k n evs, tour stop k n evs -> forall evs', tour stop k n evs' -> evs' = evs.
Proof. exact tour_det. Qed.
Print Assumptions C46_tour_unique.

(** ... and stoppers that abort without asking to leave the node stop the walk: no further callback
    is called once one of them has done so ([Q] is the set of states after an abort), and the walk returns such a
    stopper just in this case. *)
Theorem C46_hard_abort_stops : forall (St : Type) (enter exit : kind -> anode -> St -> cres (option stopper * St)) (Q : St -> Prop),
  hard Q enter -> hard Q exit -> forall fuel k n st s st', ~ Q st -> walk enter exit fuel k n st = COk (s, st') ->
  (aborts s <-> Q st') /\ (forall x, s = Some x -> abort x = true -> exit_node x = false).
Proof. intros St. exact hard_abort_stops. Qed.
Print Assumptions C46_hard_abort_stops.

(** But [Aborter] is not such a stopper.  From an enter callback it does no more than [NodeExiter]
    whatever else the callbacks do ... *)
Theorem C46_aborter_like_exiter : forall (St : Type) (enter exit : kind -> anode -> St -> cres (option stopper * St)) fuel k n st,
  soft_result (walk (soft enter) exit fuel k n st) = soft_result (walk enter exit fuel k n st).
Proof. intros St. exact walk_soft. Qed.
Print Assumptions C46_aborter_like_exiter.

Definition walked (x : string) : anode := match front_ast 300 x with COk (inr n) => n | _ => ABranch [] end.
Definition two_prods : anode := Eval vm_compute in walked "a -> 'x'; b -> 'y';".
Definition kind_eqb (a b : kind) : bool := if (ltac:(decide equality) : forall x y : kind, {x = y} + {x <> y}) a b then true else false.
(** Callbacks that return a stopper for the nodes of kind [ask], and count those of kind [tally]. *)
Definition calling (ask : option (kind * stopper)) (tally : option kind) (k : kind) (n : anode) (st : nat) : cres (option stopper * nat) :=
  COk (match ask with Some (k', s) => if kind_eqb k k' then Some s else None | None => None end,
       match tally with Some k' => if kind_eqb k k' then S st else st | None => st end).

(** ... so a walk whose first callback returns [Aborter] goes on: both rules of the text are visited, and nothing
    is reported. *)
Theorem C46_aborter_refuted : exists n, front_ast 300 "a -> 'x'; b -> 'y';" = COk (inr n) /\
  walk (calling (Some (KProd, Aborter)) (Some KProd)) (calling None None) 300 KGrammar n 0 = COk (None, 2) /\
  walk (calling None None) (calling (Some (KProd, Aborter)) (Some KProd)) 300 KGrammar n 0 = COk (None, 2).
Proof. exists two_prods. repeat split; vm_compute; reflexivity. Qed.
Print Assumptions C46_aborter_refuted.

(** A [NodeExiter] returned for a token leaves the node around it: the rest of the rule is not
    visited (otherwise there are two strings), nor is its exit callback called (otherwise there are two calls). *)
Theorem C46_token_exit_refuted : exists n, front_ast 300 "a -> 'x'; b -> 'y';" = COk (inr n) /\
  walk (calling None (Some KStr)) (calling None None) 300 KGrammar n 0 = COk (None, 2) /\
  walk (calling (Some (KIdent, NodeExiter)) (Some KStr)) (calling None None) 300 KGrammar n 0 = COk (None, 0) /\
  walk (calling None None) (calling None (Some KProd)) 300 KGrammar n 0 = COk (None, 2) /\
  walk (calling (Some (KIdent, NodeExiter)) None) (calling None (Some KProd)) 300 KGrammar n 0 = COk (None, 0).
Proof. exists two_prods. repeat split; vm_compute; reflexivity. Qed.
Print Assumptions C46_token_exit_refuted.

(** Example: a depth-first walk that skips the first rule, and a hard abort at the first rule. *)
Definition name_of (n : anode) : bytes := match one "IDENT" n with Some m => match all_tokens m with COk (t :: _) => bs t | _ => [] end | None => [] end.
Definition is_first (k : kind) (n : anode) : bool := kind_eqb k KProd && beqb (name_of n) (bs "a").
Definition summary (e : event) : bool * kind := match e with Enter k _ => (true, k) | Exit k _ => (false, k) end.
Definition stop_first (k : kind) (n : anode) (st : nat) : cres (option stopper * nat) :=
  COk (if is_first k n then Some (mkStopper false true) else None, if is_first k n then 1 else st).
Example C46_example : height two_prods < 300 /\
  walk (entering is_first (fun st e => st ++ [summary e])%list) (leaving (fun st e => st ++ [summary e])%list) 300 KGrammar two_prods [] = COk (None,
    [(true, KGrammar); (true, KStmt); (true, KProd); (false, KStmt); (true, KStmt); (true, KProd); (true, KIdent); (true, KTerm);
     (true, KTerm); (true, KTerm); (true, KTerm); (true, KNamed); (true, KAtom); (true, KStr); (false, KAtom); (false, KNamed);
     (false, KTerm); (false, KTerm); (false, KTerm); (false, KTerm); (false, KProd); (false, KStmt); (false, KGrammar)]) /\
  hard (fun st => st = 1) stop_first /\ walk stop_first (calling None None) 300 KGrammar two_prods 0 = COk (Some (mkStopper false true), 1).
Proof.
  split; [vm_compute; lia|]. split; [vm_compute; reflexivity|]. split; [|vm_compute; reflexivity].
  intros k n st s st' N H. unfold stop_first in H. injection H as <- <-. destruct (is_first k n).
  - split; [|intros x X; now injection X as <-]. split; auto. intros _. exists (mkStopper false true). auto.
  - split; [|discriminate]. split; [intros (x & X & _); discriminate|intro X; now destruct N].
Qed.
