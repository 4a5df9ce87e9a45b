(** Predictive grammars: the next byte decides every choice, option and repetition (LL(1), on bytes).
    The table says which rules and patterns may match nothing, what they may start with, and what
    may come after a rule. *)
From Verif Require Import Base Syntax Engine.
Local Open Scope Z_scope.

Record table := mkTable {
  t_empty : string -> bool; t_starts : string -> list ascii; t_next : string -> list ascii;
  p_empty : bytes -> bool; p_starts : bytes -> list ascii
}.

Definition apart (a b : list ascii) : Prop := forall c, In c a -> ~ In c b.
(** What may be seen at a place where [a] is expected and, if that may be empty, then [b]. *)
Definition or_then (a : list ascii) (e : bool) (b : list ascii) : list ascii := a ++ (if e then b else []).

(** What may be seen after one of at most [mx] (0 = any number of) repetitions. *)
Definition or_again (mx : nat) (a b : list ascii) : list ascii := match mx with 1%nat => b | _ => a ++ b end.

(** May the term match nothing? *)
Fixpoint empties (T : table) (t : term) : bool :=
  match t with
  | TS x => match x with [] => true | _ => false end
  | TRE x => p_empty T x
  | TRule r => t_empty T r
  | TNamed _ u => empties T u
  | TSeq us => forallb (empties T) us
  | TOneof us => existsb (empties T) us
  | TQuant u mn _ => Nat.eqb mn 0 || empties T u
  | TDelim u _ _ _ _ => empties T u
  | _ => true
  end.
(** The bytes that what it matches may start with. *)
Fixpoint starts (T : table) (t : term) : list ascii :=
  match t with
  | TS x => match x with [] => [] | c :: _ => [c] end
  | TRE x => p_starts T x
  | TRule r => t_starts T r
  | TNamed _ u => starts T u
  | TSeq us => (fix go us := match us with [] => [] | u :: us' => or_then (starts T u) (empties T u) (go us') end) us
  | TOneof us => flat_map (starts T) us
  | TQuant u _ _ => starts T u
  | TDelim u sep _ cs ce =>
      (if cs then starts T sep else []) ++ starts T u ++ (if empties T u then starts T sep else [])
  | _ => []
  end.

(** A match of the pattern is empty or starts with one of its bytes. *)
Definition opens (E : engine) (T : table) (x : bytes) : Prop :=
  forall txt b gs, re_find E (anchor ++ group x) txt = Some ((0, b) :: gs) ->
  b = 0 /\ p_empty T x = true \/ 0 < b /\ exists c rest, txt = c :: rest /\ In c (p_starts T x).

(** [predictive t next]: one byte decides, where [next] may come after the term. *)
Fixpoint predictive (E : engine) (T : table) (t : term) (next : list ascii) : Prop :=
  match t with
  | TS x => x <> []
  | TRE x => opens E T x
  | TRule r => incl next (t_next T r)
  | TNamed _ u => predictive E T u next
  | TSeq us =>
      (fix go us := match us with
                    | [] => True
                    | u :: us' => predictive E T u (or_then (starts T (TSeq us')) (forallb (empties T) us') next) /\ go us'
                    end) us
  | TOneof us =>
      (fix go us := match us with
                    | [] => True
                    | u :: us' => predictive E T u next /\ apart (starts T u) (flat_map (starts T) us') /\
                                  (existsb (empties T) us' = true -> apart (starts T u) next) /\ go us'
                    end) us
  | TQuant u _ mx => apart (starts T u) next /\ predictive E T u (or_again mx (starts T u) next)
  | TDelim u sep _ cs ce =>
      ce = false /\
      let more := or_then (starts T sep) (empties T sep) (starts T u) in
      let last := or_then (starts T u) (empties T u) (more ++ next) in
      apart more next /\ predictive E T u (more ++ next) /\ predictive E T sep last /\
      (cs = true -> apart (starts T sep) last)
  | _ => False
  end.

Definition predictive_grammar (E : engine) (T : table) (g : grammar) : Prop :=
  forall r t, lookup r g = Some t ->
  (empties T t = true -> t_empty T r = true) /\ incl (starts T t) (t_starts T r) /\ predictive E T t (t_next T r).
