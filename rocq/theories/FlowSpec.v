(** Vocabulary for where parsing leaves the input and what the leaves of a tree cover. *)
From Verif Require Import Base Scanner ScannerSpec Syntax Engine Parse PegSpec.
Local Open Scope Z_scope.

(** [s'] is what remains of [s] after [j] bytes: same source, same end, start not before. *)
Definition forward (s s' : scanner) : Prop :=
  exists o i n j, window s o i n /\ (j <= n)%nat /\ window s' o (i + j) (n - j).

(** Externals that obey the same law. *)
Definition well_behaved (fn : extfn) : Prop :=
  forall sc s, in_range s ->
    forward s (fst (fn sc s)) /\
    forall residue te, snd (fn sc s) = XErr (EUnconsumed residue te) -> forward s residue.

Definition tame (c : config) : Prop :=
  engine_ok (cf_eng c) /\
  (forall s fn, lookup s (cf_ext c) = Some fn -> well_behaved fn) /\
  (forall e, cf_esc c = Some e -> well_behaved (esc_fn e)).

(** The scanners are windows of [o], one after the other, between [lo] and [hi]. *)
Inductive ordered (o : source) : nat -> nat -> list scanner -> Prop :=
| ord_nil : forall lo hi, (lo <= hi)%nat -> ordered o lo hi []
| ord_cons : forall lo hi x i n ls, window x o i n -> (lo <= i)%nat -> ordered o (i + n) hi ls ->
    ordered o lo hi (x :: ls).

(** No look-ahead terms. *)
Fixpoint no_look (t : term) : bool :=
  match t with
  | TRule _ | TS _ | TRE _ | TExtRef _ | TREF _ _ => true
  | TSeq ts => forallb no_look ts
  | TOneof ts => forallb no_look ts
  | TStack ts => forallb no_look ts
  | TDelim t sep _ _ _ => no_look t && no_look sep
  | TLookAhead _ => false
  | TQuant t _ _ => no_look t
  | TNamed _ t => no_look t
  | TScoped t g => no_look t && forallb (fun kv => no_look (snd kv)) g
  | TCut t => no_look t
  end.
Definition no_look_grammar (g : grammar) : bool := forallb (fun kv => no_look (snd kv)) g.

(** Every pattern that a token of the term is matched with satisfies [P]; [w] is the
    .wrapRE in force. *)
Section Patterns.
  Variable P : bytes -> Prop.
  Definition wrap_in (g : grammar) (w : option term) : option term :=
    match lookup WrapRE g with Some w' => Some w' | None => w end.
  Fixpoint patterns (w : option term) (t : term) : Prop :=
    match t with
    | TRule _ | TExtRef _ => True
    | TS x => forall pat, token_pattern w x (group (quote_meta x)) pat -> P pat
    | TRE x => forall pat, token_pattern w x (group x) pat -> P pat
    | TREF _ _ => forall x, P (group (quote_meta x))
    | TSeq ts | TOneof ts | TStack ts =>
        (fix go l := match l with [] => True | u :: l' => patterns w u /\ go l' end) ts
    | TDelim t sep _ _ _ => patterns w t /\ patterns w sep
    | TLookAhead t | TQuant t _ _ | TNamed _ t | TCut t => patterns w t
    | TScoped t g =>
        let w' := wrap_in g w in
        patterns w' t /\
        (fix go (l : list (string * term)) := match l with [] => True | kv :: l' => patterns w' (snd kv) /\ go l' end) g
    end.
  Definition patterns_grammar (g : grammar) : Prop :=
    forall r t, lookup r g = Some t -> patterns (lookup WrapRE g) t.
End Patterns.

(** All capture groups of the pattern take part in every match. *)
Definition participates (E : engine) (pat : bytes) : Prop :=
  forall t locs, re_find E (anchor ++ pat) t = Some locs -> ~ In (-1, -1) locs.

(** The pattern captures exactly what it matches, and nothing else. *)
Definition captures_all (E : engine) (pat : bytes) : Prop :=
  forall t b gs, re_find E (anchor ++ pat) t = Some ((0, b) :: gs) -> gs = [(0, b)].

(** No .wrapRE and no capture groups: the patterns of the grammar are literals matched byte
    by byte and valid regular expressions without groups. *)
Fixpoint no_groups (E : engine) (t : term) : Prop :=
  match t with
  | TRule _ | TExtRef _ => True
  | TS x => re_lit_ok E x = true
  | TRE x => re_valid E x = true /\ re_valid E (anchor ++ group x) = true /\ re_groups E x = 0%nat
  | TREF _ _ => forall x, re_lit_ok E x = true
  | TSeq ts | TOneof ts | TStack ts =>
      (fix go l := match l with [] => True | u :: l' => no_groups E u /\ go l' end) ts
  | TDelim t sep _ _ _ => no_groups E t /\ no_groups E sep
  | TLookAhead t | TQuant t _ _ | TNamed _ t | TCut t => no_groups E t
  | TScoped t g =>
      lookup WrapRE g = None /\ no_groups E t /\
      (fix go (l : list (string * term)) := match l with [] => True | kv :: l' => no_groups E (snd kv) /\ go l' end) g
  end.
Definition no_groups_grammar (E : engine) (g : grammar) : Prop :=
  lookup WrapRE g = None /\ forall r t, lookup r g = Some t -> no_groups E t.
