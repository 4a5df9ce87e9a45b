(** Which macros the building of a term expands. *)
From Verif Require Import Base Scanner Syntax Resolve Ast WbnfAst Build TextSpec.

(** [uses ms t b]: to build the term [t], the macro with the body [b] has to be expanded. *)
Inductive uses (ms : macros) : anode -> anode -> Prop :=
| us_term : forall t t' b, In t' (all "term" t) -> uses ms t' b -> uses ms t b
| us_named : forall t n b, all "term" t = [] -> one "named" t = Some n -> uses_named ms n b -> uses ms t b
| us_sep : forall t q n b, all "term" t = [] -> In q (all "quant" t) -> choice_of (Some q) = COk 2%Z -> one "named" q = Some n ->
    uses_named ms n b -> uses ms t b
| us_nested : forall t op g stmt p t' b, all "term" t <> [] -> one_op t = COk op -> op <> "|"%string -> op <> ">"%string ->
    all "grammar" t = [g] -> In stmt (all "stmt" g) -> one "prod" stmt = Some p -> In t' (all "term" p) -> uses ms t' b -> uses ms t b
with uses_named (ms : macros) : anode -> anode -> Prop :=
| un : forall n a b, one "atom" n = Some a -> uses_atom ms a b -> uses_named ms n b
with uses_atom (ms : macros) : anode -> anode -> Prop :=
| ua_look : forall a t b, kind_of a "lookahead" -> one "lookahead" a = Some t -> uses ms t b -> uses_atom ms a b
| ua_group : forall a t b, kind_of a "term" -> one "term" a = Some t -> uses ms t b -> uses_atom ms a b
| ua_call : forall a c name m b, kind_of a "macrocall" -> one "macrocall" a = Some c -> string_of (one "name" c) = COk name ->
    lookup name ms = Some m -> one "term" m = Some b -> uses_atom ms a b.
Scheme uses_mut := Minimality for uses Sort Prop
  with uses_named_mut := Minimality for uses_named Sort Prop
  with uses_atom_mut := Minimality for uses_atom Sort Prop.
Combined Scheme uses_mutind from uses_mut, uses_named_mut, uses_atom_mut.

(** [first_uses ms t u]: the first thing the builder does for [t] is to build [u]. *)
Inductive first_uses (ms : macros) : anode -> anode -> Prop :=
| fu_term : forall t u us, all "term" t = u :: us -> first_uses ms t u
| fu_call : forall t n a c name m b, all "term" t = [] -> one "named" t = Some n -> one "atom" n = Some a -> kind_of a "macrocall" ->
    one "macrocall" a = Some c -> string_of (one "name" c) = COk name -> lookup name ms = Some m -> one "term" m = Some b -> first_uses ms t b.

(** * Substitution *)

(** [substituted param value t u]: [u] is [t] with the parameters replaced by values, everywhere. *)
Section Substitution.
  Variables (param : string -> Prop) (value : string -> term -> Prop).
  Inductive substituted : term -> term -> Prop :=
  | su_param : forall r v, param r -> value r v -> substituted (TRule r) v
  | su_rule : forall r, ~ param r -> substituted (TRule r) (TRule r)
  | su_lit : forall s, substituted (TS s) (TS s)
  | su_re : forall s, substituted (TRE s) (TRE s)
  | su_ref : forall i d, substituted (TREF i d) (TREF i d)
  | su_ext : forall s, substituted (TExtRef s) (TExtRef s)
  | su_seq : forall ts us, Forall2 substituted ts us -> substituted (TSeq ts) (TSeq us)
  | su_oneof : forall ts us, Forall2 substituted ts us -> substituted (TOneof ts) (TOneof us)
  | su_stack : forall ts us, Forall2 substituted ts us -> substituted (TStack ts) (TStack us)
  | su_delim : forall t u s s' a l r, substituted t u -> substituted s s' -> substituted (TDelim t s a l r) (TDelim u s' a l r)
  | su_look : forall t u, substituted t u -> substituted (TLookAhead t) (TLookAhead u)
  | su_quant : forall t u mn mx, substituted t u -> substituted (TQuant t mn mx) (TQuant u mn mx)
  | su_named : forall n t u, substituted t u -> substituted (TNamed n t) (TNamed n u)
  | su_cut : forall t u, substituted t u -> substituted (TCut t) (TCut u).
End Substitution.
(** No look-ahead and no nested grammar. *)
Fixpoint exposed (t : term) : bool :=
  match t with
  | TRule _ | TS _ | TRE _ | TREF _ _ | TExtRef _ => true
  | TSeq ts | TOneof ts | TStack ts => forallb exposed ts
  | TDelim t sep _ _ _ => exposed t && exposed sep
  | TQuant t _ _ | TNamed _ t | TCut t => exposed t
  | TLookAhead _ | TScoped _ _ => false
  end.
(** [names_param args r i]: [r] is the name of the parameter number [i], and of no earlier one. *)
Inductive names_param : list anode -> string -> nat -> Prop :=
| np_here : forall a args r, string_of (Some a) = COk r -> names_param (a :: args) r 0
| np_later : forall a args x r i, string_of (Some a) = COk x -> x <> r -> names_param args r i -> names_param (a :: args) r (S i).
