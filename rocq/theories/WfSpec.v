(** Well-founded grammars: nothing can go round without consuming input. *)
From Verif Require Import Base Scanner Syntax Engine Parse PegSpec FlowSpec.
Local Open Scope Z_scope.

(** For each grammar in scope, innermost first: the rank of every rule, and whether it is
    claimed that the rule always consumes input. *)
Definition ranking := list (string * (nat * bool)).
Fixpoint info (R : list ranking) (r : string) : option (nat * bool) :=
  match R with
  | [] => None
  | m :: R' => match lookup r m with Some x => Some x | None => info R' r end
  end.

(** [k] is below the bound; no bound is [None]. *)
Definition below (k : nat) (b : option nat) : Prop := match b with None => True | Some n => (k < n)%nat end.

(** Every match of the pattern is longer than nothing. *)
Definition bites (E : engine) (pat : bytes) : Prop :=
  forall t a b gs, re_find E (anchor ++ pat) t = Some ((a, b) :: gs) -> 0 < b.

(** The rules of a nested grammar do not escape to the outer scope (see C47): each is an
    alias or does not end in a bare rule reference. *)
Definition stays_inside (g : grammar) : Prop :=
  forall r u, lookup r g = Some u -> is_alias u = true \/ headrule u = false.

(** [eats R w t]: a match of [t] consumes input (if the claims in [R] are right).
    [safe R w b t]: matching [t] enters only rules of rank below [b] before it has consumed
    anything, and the bodies of its unbounded repetitions consume.
    [w] is the .wrapRE in force. *)
Inductive eats (E : engine) : list ranking -> option term -> term -> Prop :=
| eats_lit : forall R w x, (forall pat, token_pattern w x (group (quote_meta x)) pat -> bites E pat) -> eats E R w (TS x)
| eats_re : forall R w x, (forall pat, token_pattern w x (group x) pat -> bites E pat) -> eats E R w (TRE x)
| eats_rule : forall R w r k, info R r = Some (k, true) -> eats E R w (TRule r)
| eats_seq : forall R w ts, Exists (eats E R w) ts -> eats E R w (TSeq ts)
| eats_oneof : forall R w ts, Forall (eats E R w) ts -> eats E R w (TOneof ts)
| eats_delim : forall R w t sep a cs ce, eats E R w t -> eats E R w (TDelim t sep a cs ce)
| eats_quant : forall R w t mn mx, (0 < mn)%nat -> eats E R w t -> eats E R w (TQuant t mn mx)
| eats_named : forall R w n t, eats E R w t -> eats E R w (TNamed n t)
| eats_cut : forall R w t, eats E R w t -> eats E R w (TCut t)
| eats_scoped : forall R w t g m, stays_inside g -> table E (m :: R) (wrap_in g w) g m -> eats E (m :: R) (wrap_in g w) t ->
    eats E R w (TScoped t g)
with safe (E : engine) : list ranking -> option term -> option nat -> term -> Prop :=
| safe_lit : forall R w b x, safe E R w b (TS x)
| safe_re : forall R w b x, safe E R w b (TRE x)
| safe_ref : forall R w b i d, safe E R w b (TREF i d)
| safe_ext : forall R w b x, safe E R w b (TExtRef x)
| safe_rule : forall R w b r k e, info R r = Some (k, e) -> below k b -> safe E R w b (TRule r)
| safe_seq : forall R w b ts, safe_all E R w b ts -> safe E R w b (TSeq ts)
| safe_oneof : forall R w b ts, Forall (safe E R w b) ts -> safe E R w b (TOneof ts)
| safe_delim : forall R w b t sep a cs ce, safe E R w b (delim_seq t sep cs ce) -> safe E R w b (TDelim t sep a cs ce)
| safe_look : forall R w b t, safe E R w b t -> safe E R w b (TLookAhead t)
| safe_quant : forall R w b t mn mx, safe E R w b t -> (mx = O -> eats E R w t) -> safe E R w b (TQuant t mn mx)
| safe_named : forall R w b n t, safe E R w b t -> safe E R w b (TNamed n t)
| safe_cut : forall R w b t, safe E R w b t -> safe E R w b (TCut t)
| safe_scoped : forall R w b t g m, stays_inside g -> table E (m :: R) (wrap_in g w) g m -> safe E (m :: R) (wrap_in g w) b t ->
    safe E R w b (TScoped t g)
(** The elements of a sequence: once one of them eats, the rest may enter any rule. *)
with safe_all (E : engine) : list ranking -> option term -> option nat -> list term -> Prop :=
| sa_nil : forall R w b, safe_all E R w b []
| sa_eaten : forall R w b t ts, safe E R w b t -> eats E R w t -> safe_all E R w None ts -> safe_all E R w b (t :: ts)
| sa_cons : forall R w b t ts, safe E R w b t -> safe_all E R w b ts -> safe_all E R w b (t :: ts)
(** The rules of a grammar keep to their ranks and claims. *)
with table (E : engine) : list ranking -> option term -> grammar -> ranking -> Prop :=
| tab : forall R w g m,
    (forall r, lookup r g = None <-> lookup r m = None) ->
    (forall r t k e, lookup r g = Some t -> lookup r m = Some (k, e) -> safe E R w (Some k) t) ->
    (forall r t k, lookup r g = Some t -> lookup r m = Some (k, true) -> eats E R w t) ->
    table E R w g m.

Definition well_founded_grammar (E : engine) (g : grammar) : Prop :=
  exists m, table E [m] (lookup WrapRE g) g m.
