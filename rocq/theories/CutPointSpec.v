(** What inserting cut points should do, without maps and callbacks. *)
From Verif Require Import Base Syntax.

Definition beq_dec : forall a b : bytes, {a = b} + {a <> b} := list_eq_dec ascii_dec.
Definition times_in (x : bytes) (l : list bytes) : nat := count_occ beq_dec l x.

(** The elements of a list that occur once in it. *)
Definition singles (l : list bytes) : list bytes := filter (fun x => Nat.eqb (times_in x l) 1) l.

(** The literals written in a term, as the code reads it: look-ahead is skipped, a separator
    that may also lead the list is read twice, a nested grammar hands on the literals that are
    single in it. *)
Fixpoint written (t : term) : list bytes :=
  match t with
  | TS s => [s]
  | TSeq ts | TStack ts | TOneof ts => flat_map written ts
  | TDelim t sep _ cs _ => written t ++ written sep ++ (if cs then written sep else [])
  | TQuant t _ _ | TNamed _ t | TCut t => written t
  | TScoped t g => written t ++ singles (flat_map (fun kv => written (snd kv)) g)
  | TREF _ (Some d) => [d]
  | _ => []
  end.
Definition written_grammar (g : grammar) : list bytes := flat_map (fun kv => written (snd kv)) g.

(** All literals, wherever they stand. *)
Fixpoint literals (t : term) : list bytes :=
  match t with
  | TS s => [s]
  | TSeq ts | TStack ts | TOneof ts => flat_map literals ts
  | TDelim t sep _ _ _ => literals t ++ literals sep
  | TQuant t _ _ | TNamed _ t | TCut t | TLookAhead t => literals t
  | TScoped t g => literals t ++ flat_map (fun kv => literals (snd kv)) g
  | TREF _ (Some d) => [d]
  | _ => []
  end.
Definition literals_grammar (g : grammar) : list bytes := flat_map (fun kv => literals (snd kv)) g.

(** No nested grammar, no look-ahead, no list that may start with its separator. *)
Fixpoint flat (t : term) : bool :=
  match t with
  | TSeq ts | TStack ts | TOneof ts => forallb flat ts
  | TDelim t sep _ cs _ => flat t && flat sep && negb cs
  | TQuant t _ _ | TNamed _ t | TCut t => flat t
  | TScoped _ _ | TLookAhead _ => false
  | _ => true
  end.
Definition flat_grammar (g : grammar) : bool := forallb (fun kv => flat (snd kv)) g.

(** [t'] is [t] with a cut point put around every literal in [U]; look-ahead untouched. *)
Inductive marked (U : bytes -> Prop) : term -> term -> Prop :=
| m_cut : forall s, U s -> marked U (TS s) (TCut (TS s))
| m_lit : forall s, ~ U s -> marked U (TS s) (TS s)
| m_re : forall s, marked U (TRE s) (TRE s)
| m_rule : forall r, marked U (TRule r) (TRule r)
| m_ref : forall i d, marked U (TREF i d) (TREF i d)
| m_ext : forall s, marked U (TExtRef s) (TExtRef s)
| m_look : forall t, marked U (TLookAhead t) (TLookAhead t)
| m_seq : forall ts ts', Forall2 (marked U) ts ts' -> marked U (TSeq ts) (TSeq ts')
| m_oneof : forall ts ts', Forall2 (marked U) ts ts' -> marked U (TOneof ts) (TOneof ts')
| m_stack : forall ts ts', Forall2 (marked U) ts ts' -> marked U (TStack ts) (TStack ts')
| m_delim : forall t t' sep sep' a cs ce, marked U t t' -> marked U sep sep' ->
    marked U (TDelim t sep a cs ce) (TDelim t' sep' a cs ce)
| m_quant : forall t t' mn mx, marked U t t' -> marked U (TQuant t mn mx) (TQuant t' mn mx)
| m_named : forall n t t', marked U t t' -> marked U (TNamed n t) (TNamed n t')
| m_scoped : forall t t' g g', marked U t t' ->
    Forall2 (fun kv kv' => fst kv' = fst kv /\ marked U (snd kv) (snd kv')) g g' ->
    marked U (TScoped t g) (TScoped t' g')
| m_cutp : forall t t', marked U t t' -> marked U (TCut t) (TCut t').
Definition marked_grammar (U : bytes -> Prop) (g g' : grammar) : Prop :=
  Forall2 (fun kv kv' => fst kv' = fst kv /\ marked U (snd kv) (snd kv')) g g'.

(** The .wrapRE rules of the nested grammars of a term, and of a grammar. *)
Fixpoint wraps (t : term) : list term :=
  match t with
  | TSeq ts | TStack ts | TOneof ts => flat_map wraps ts
  | TDelim t sep _ _ _ => wraps t ++ wraps sep
  | TQuant t _ _ | TNamed _ t | TCut t | TLookAhead t => wraps t
  | TScoped t g => wraps t ++ flat_map (fun kv => (if String.eqb (fst kv) WrapRE then [snd kv] else []) ++ wraps (snd kv)) g
  | _ => []
  end.
Definition wraps_grammar (g : grammar) : list term :=
  flat_map (fun kv => (if String.eqb (fst kv) WrapRE then [snd kv] else []) ++ wraps (snd kv)) g.

(** The literals listed in .wrapRE rules are not single in the grammar. *)
Definition wraps_unmarked (g : grammar) : Prop :=
  forall w x, In w (wraps_grammar g) -> In x (literals w) -> times_in x (written_grammar g) <> 1.
