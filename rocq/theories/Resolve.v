(** Model of parser/resolve.go and of [resolveStacks] (parser.go:72-94). *)
From Verif Require Import Base Syntax.
From Coq Require Import DecimalString.

(** Results of compile-time code: a value, a Go panic, or an endless loop. *)
Inductive cres (A : Type) := COk (a : A) | CPanic | CDiv.
Arguments COk {A} a.
Arguments CPanic {A}.
Arguments CDiv {A}.

Definition cbind {A B} (m : cres A) (f : A -> cres B) : cres B :=
  match m with COk a => f a | CPanic => CPanic | CDiv => CDiv end.

Section Traverse.
  Context {A B : Type} (f : A -> cres B).
  Fixpoint ctraverse (l : list A) : cres (list B) :=
    match l with
    | [] => COk []
    | x :: l' => cbind (f x) (fun y => cbind (ctraverse l') (fun ys => COk (y :: ys)))
    end.
End Traverse.

(** resolve.go:5-74 [Term.Resolve].  [CutPoint.Resolve] drops the cut point (line 68-70);
    [Stack] and [ScopedGrammar] panic (lines 39-41, 64-66). *)
Fixpoint term_resolve (old new : string) (t : term) : cres term :=
  match t with
  | TRule r => COk (TRule (if String.eqb r old then new else r))
  | TS _ | TRE _ | TREF _ _ | TExtRef _ => COk t
  | TSeq ts => cbind (ctraverse (term_resolve old new) ts) (fun ts' => COk (TSeq ts'))
  | TOneof ts => cbind (ctraverse (term_resolve old new) ts) (fun ts' => COk (TOneof ts'))
  | TStack _ => CPanic
  | TDelim t sep a cs ce =>
      cbind (term_resolve old new t) (fun t' =>
      cbind (term_resolve old new sep) (fun sep' => COk (TDelim t' sep' a cs ce)))
  | TLookAhead t => cbind (term_resolve old new t) (fun t' => COk (TLookAhead t'))
  | TQuant t mn mx => cbind (term_resolve old new t) (fun t' => COk (TQuant t' mn mx))
  | TNamed n t => cbind (term_resolve old new t) (fun t' => COk (TNamed n t'))
  | TScoped _ _ => CPanic
  | TCut t => term_resolve old new t
  end.

(** [fmt.Sprintf("%d", n)] for non-negative n. *)
Definition dec (n : nat) : string := NilEmpty.string_of_uint (Nat.to_uint n).

(** parser.go:85-88: name of layer [j] of a stack of [n] layers. *)
Definition layer_name (rule : string) (n j : nat) : string :=
  let j' := Nat.modulo j n in
  if Nat.eqb j' 0 then rule else (rule ++ StackDelim ++ dec j')%string.

(** parser.go:84-91: the layers from index [i] on; [old] is the rule being defined. *)
Fixpoint resolve_layers (rule : string) (n i : nat) (old : string) (layers : list term) (g : grammar)
  : cres grammar :=
  match layers with
  | [] => COk g
  | layer :: rest =>
      let new := layer_name rule n (i + 1) in
      cbind (term_resolve StackDelim new layer) (fun t =>
      resolve_layers rule n (i + 1) new rest (aset old t g))
  end.

(** parser.go:80-94 [resolveStacks]: the loop over the rules present at the start.
    (Rules added while ranging are never stacks, so whether Go visits them is irrelevant.) *)
Fixpoint resolve_stacks_loop (todo : grammar) (g : grammar) : cres grammar :=
  match todo with
  | [] => COk g
  | (rule, TStack layers) :: rest =>
      cbind (resolve_layers rule (length layers) 0 rule layers g) (resolve_stacks_loop rest)
  | _ :: rest => resolve_stacks_loop rest g
  end.

Definition is_stack (t : term) : bool := match t with TStack _ => true | _ => false end.

(** parser.go:99-105 and 744-750: clone and resolve when some rule is a stack. *)
Definition resolve_stacks (g : grammar) : cres grammar :=
  if existsb (fun kv => is_stack (snd kv)) g then resolve_stacks_loop g g else COk g.
