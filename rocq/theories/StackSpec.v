(** Precedence stacks and map order: what compiling a grammar should not depend on. *)
From Verif Require Import Base Scanner Syntax.
From Coq Require Import DecimalString.

(** * Stacks *)

(** The rule of layer [i] of the stack [r]: r, r@1, r@2, ... *)
Definition level (r : string) (i : nat) : string :=
  match i with O => r | _ => (r ++ "@" ++ NilEmpty.string_of_uint (Nat.to_uint i))%string end.
(** What @ means in layer [i] of [n]: the next layer, and the first in the last one. *)
Definition next_level (r : string) (n i : nat) : string :=
  if Nat.eqb (S i) n then r else level r (S i).

(** [put x t u]: [u] is the layer [t] with @ read as the rule [x].  Cut points are lost
    (parser/resolve.go:68-70). *)
Inductive put (x : string) : term -> term -> Prop :=
| put_at : put x (TRule "@") (TRule x)
| put_rule : forall r, r <> "@"%string -> put x (TRule r) (TRule r)
| put_lit : forall s, put x (TS s) (TS s)
| put_re : forall s, put x (TRE s) (TRE s)
| put_ref : forall i d, put x (TREF i d) (TREF i d)
| put_ext : forall s, put x (TExtRef s) (TExtRef s)
| put_seq : forall ts us, Forall2 (put x) ts us -> put x (TSeq ts) (TSeq us)
| put_oneof : forall ts us, Forall2 (put x) ts us -> put x (TOneof ts) (TOneof us)
| put_delim : forall t sep a cs ce t' sep', put x t t' -> put x sep sep' ->
    put x (TDelim t sep a cs ce) (TDelim t' sep' a cs ce)
| put_look : forall t t', put x t t' -> put x (TLookAhead t) (TLookAhead t')
| put_quant : forall t mn mx t', put x t t' -> put x (TQuant t mn mx) (TQuant t' mn mx)
| put_named : forall n t t', put x t t' -> put x (TNamed n t) (TNamed n t')
| put_cut : forall t t', put x t t' -> put x (TCut t) t'.

(** No rule is called like a layer of a stack. *)
Definition clear_names (g : grammar) : Prop :=
  forall r layers i, lookup r g = Some (TStack layers) -> (0 < i < length layers)%nat -> lookup (level r i) g = None.

(** [g2] is [g] with its stacks turned into chains of rules. *)
Record unstacked (g g2 : grammar) : Prop := {
  us_rule : forall r t, lookup r g = Some t -> (forall l layers, t <> TStack (l :: layers)) -> lookup r g2 = Some t;
  us_layer : forall r layers i t, lookup r g = Some (TStack layers) -> nth_error layers i = Some t ->
    exists u, lookup (level r i) g2 = Some u /\ put (next_level r (length layers) i) t u;
  us_only : forall x, lookup x g2 <> None ->
    lookup x g <> None \/ exists r layers i, lookup r g = Some (TStack layers) /\ (0 < i < length layers)%nat /\ x = level r i
}.

(** The term mentions the rule. *)
Inductive mentions (r : string) : term -> Prop :=
| mn_rule : mentions r (TRule r)
| mn_seq : forall ts, Exists (mentions r) ts -> mentions r (TSeq ts)
| mn_oneof : forall ts, Exists (mentions r) ts -> mentions r (TOneof ts)
| mn_stack : forall ts, Exists (mentions r) ts -> mentions r (TStack ts)
| mn_delim : forall t sep a cs ce, mentions r t \/ mentions r sep -> mentions r (TDelim t sep a cs ce)
| mn_look : forall t, mentions r t -> mentions r (TLookAhead t)
| mn_quant : forall t mn mx, mentions r t -> mentions r (TQuant t mn mx)
| mn_named : forall n t, mentions r t -> mentions r (TNamed n t)
| mn_cut : forall t, mentions r t -> mentions r (TCut t)
| mn_scoped : forall t g, mentions r t \/ Exists (fun kv => mentions r (snd kv)) g -> mentions r (TScoped t g).

(** * Map order *)

(** The same grammar with its maps (also the nested ones) listed in another order.  Rule
    names are unique in a map and not those of layers. *)
Inductive reordered : term -> term -> Prop :=
| ro_rule : forall r, reordered (TRule r) (TRule r)
| ro_lit : forall s, reordered (TS s) (TS s)
| ro_re : forall s, reordered (TRE s) (TRE s)
| ro_ref : forall i d, reordered (TREF i d) (TREF i d)
| ro_ext : forall s, reordered (TExtRef s) (TExtRef s)
| ro_seq : forall ts us, Forall2 reordered ts us -> reordered (TSeq ts) (TSeq us)
| ro_oneof : forall ts us, Forall2 reordered ts us -> reordered (TOneof ts) (TOneof us)
| ro_stack : forall ts us, Forall2 reordered ts us -> reordered (TStack ts) (TStack us)
| ro_delim : forall t sep a cs ce t' sep', reordered t t' -> reordered sep sep' ->
    reordered (TDelim t sep a cs ce) (TDelim t' sep' a cs ce)
| ro_look : forall t t', reordered t t' -> reordered (TLookAhead t) (TLookAhead t')
| ro_quant : forall t mn mx t', reordered t t' -> reordered (TQuant t mn mx) (TQuant t' mn mx)
| ro_named : forall n t t', reordered t t' -> reordered (TNamed n t) (TNamed n t')
| ro_cut : forall t t', reordered t t' -> reordered (TCut t) (TCut t')
| ro_scoped : forall t g t' g', reordered t t' -> same_map g g' -> reordered (TScoped t g) (TScoped t' g')
with same_map : grammar -> grammar -> Prop :=
| sm : forall g g', NoDup (keys g) -> NoDup (keys g') -> clear_names g ->
    (forall r, lookup r g = None -> lookup r g' = None) ->
    (forall r t, lookup r g = Some t -> exists t', lookup r g' = Some t' /\ reordered t t') ->
    same_map g g'.
