(** Property C81: what compiling does to the grammar compiled. *)
From Verif Require Import Base Scanner Syntax Engine Resolve Compile Parse Regex StackSpec Boot Demo WrapSpec WrapProofs WrapCompile.

(** C81: the grammar is left as it was exactly when every nested grammar standing under a [.wrapRE] has
    a [.wrapRE] of its own or a stack ... *)
Theorem C81_untouched : forall g g1, resolve_stacks g = COk g1 ->
  (left_behind g = COk g <->
   forall r t w h, In (r, t) g -> stands_in (lookup WrapRE g1) t w h -> lookup WrapRE h = None -> w = None \/ has_stack h).
Proof. exact left_same. Qed.
Print Assumptions C81_untouched.

(** ... otherwise only the [.wrapRE] rules of nested grammars differ ... *)
Theorem C81_only_wrap : forall g g', left_behind g = COk g' ->
  Forall2 (fun kv kv' => fst kv' = fst kv /\ bare_of (snd kv') = bare_of (snd kv)) g g'.
Proof. exact left_bare. Qed.
Print Assumptions C81_only_wrap.

(** ... in this way ... *)
Theorem C81_nested : forall g g1 g' r t w h, resolve_stacks g = COk g1 -> left_behind g = COk g' ->
  In (r, t) g -> stands_in (lookup WrapRE g1) t w h ->
  exists t' w2 h', In (r, t') g' /\ stands_in (lookup WrapRE g1) t' w2 h' /\ became w h h'.
Proof. exact left_nested. Qed.
Print Assumptions C81_nested.

(** ... compiling again changes nothing more ... *)
Theorem C81_settles : forall g g', proper_wraps g -> left_behind g = COk g' -> left_behind g' = COk g'.
Proof. exact left_twice. Qed.
Print Assumptions C81_settles.

(** ... and the parsers of the second compilation parse like those of the first. *)
Theorem C81_again : forall E g g' ps, proper_wraps g -> Forall (fun kv : string * term => wrap_unused (snd kv)) g ->
  compile E g = COk ps -> left_behind g = COk g' ->
  exists ps', compile E g' = COk ps' /\ forall c f r s, parse_rule c f ps' r s = parse_rule c f ps r s.
Proof. exact compile_again. Qed.
Print Assumptions C81_again.

(** Three nested grammars under one [.wrapRE]: with a [.wrapRE] of its own, with a stack, with neither. *)
Definition lone : term := TScoped (TRule "b") [("b", TS (bs "x"))]%string.
Definition spaced : grammar :=
  [(".wrapRE", TRE (bs "\s*()\s*"));
   ("a", TSeq [lone;
               TScoped (TRule "c") [(".wrapRE", TRE (bs "()")); ("c", TS (bs "y"))];
               TScoped (TRule "d") [("d", TStack [TDelim (TRule "@") (TS (bs "+")) NonAssociative false false; TRE (bs "\d")])]])]%string.
Definition lone_after : term := TScoped (TRule "b") [("b", TS (bs "x")); (".wrapRE", TRE (bs "\s*()\s*"))]%string.
Definition spaced_after : grammar :=
  [(".wrapRE", TRE (bs "\s*()\s*"));
   ("a", TSeq [lone_after;
               TScoped (TRule "c") [(".wrapRE", TRE (bs "()")); ("c", TS (bs "y"))];
               TScoped (TRule "d") [("d", TStack [TDelim (TRule "@") (TS (bs "+")) NonAssociative false false; TRE (bs "\d")])]])]%string.

Example C81_example : resolve_stacks spaced = COk spaced /\ left_behind spaced = COk spaced_after /\
  left_behind spaced_after = COk spaced_after /\ proper_wraps spaced /\ Forall (fun kv : string * term => wrap_unused (snd kv)) spaced /\
  compile regex_engine spaced = COk (parsers_of spaced) /\
  stands_in (lookup WrapRE spaced) (TSeq [lone]) (Some (TRE (bs "\s*()\s*"))) [("b", TS (bs "x"))]%string /\
  leaf_strings (parse_rule call 60 (parsers_of spaced) "a" (text " x y1 + 2 ")) = Some ["x"; "y"; "1"; "+"; "2"]%string.
Proof.
  split; [reflexivity|]. split; [vm_compute; reflexivity|]. split; [vm_compute; reflexivity|]. split.
  { split.
    - intros x [E|[E|[]]]; inversion E; exact Logic.I.
    - intros r t w w' h x [E|[E|[]]] S I; inversion E; subst; inversion S; subst.
      repeat match goal with J : In _ (_ :: _) |- _ => destruct J as [J|J] | J : In _ [] |- _ => destruct J | J : (_, _) = (_, _) |- _ => inversion J; clear J; subst
        | J : _ = t |- _ => subst t | J : stands_in _ (TScoped _ _) _ _ |- _ => inversion J; clear J; subst | J : stands_in _ lone _ _ |- _ => inversion J; clear J; subst
        | J : stands_in _ (TRule _) _ _ |- _ => inversion J | J : stands_in _ (TS _) _ _ |- _ => inversion J | J : stands_in _ (TRE _) _ _ |- _ => inversion J
        | J : stands_in _ (TStack _) _ _ |- _ => inversion J end; exact Logic.I. }
  split. { repeat constructor; discriminate. }
  split; [reflexivity|]. split; [|vm_compute; reflexivity].
  eapply si_seq; [left; reflexivity|]. apply si_here.
Qed.

(** Compile is documented to work on a copy.  A nested grammar that has been compiled in one grammar
    takes its [.wrapRE] along: used in another, it reads inputs the same term, not compiled before, does not. *)
Theorem C81_refuted : exists g g' r t t' x, left_behind g = COk g' /\ lookup r g = Some t /\ lookup r g' = Some t' /\ t' <> t /\
  compile regex_engine [(r, t)] = COk (parsers_of [(r, t)]) /\ compile regex_engine [(r, t')] = COk (parsers_of [(r, t')]) /\
  leaf_strings (parse_rule call 60 (parsers_of [(r, t)]) r (text x)) = None /\
  leaf_strings (parse_rule call 60 (parsers_of [(r, t')]) r (text x)) = Some ["x"]%string.
Proof.
  exists [(WrapRE, TRE (bs "\s*()\s*")); ("a"%string, lone)], [(WrapRE, TRE (bs "\s*()\s*")); ("a"%string, lone_after)], "a"%string, lone, lone_after, " x"%string.
  repeat split; try (vm_compute; reflexivity). discriminate.
Qed.
Print Assumptions C81_refuted.
