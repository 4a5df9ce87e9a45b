(** Two coarser readings of grammars, for stating what parsing guarantees.

    [derives]: a context-free style reading.  Any alternative of a choice, any admissible
    number of repetitions, a look-ahead needs a derivation at the same place, a back
    reference repeats the leaf texts of the bound value.  No failure, no order, no cut.

    [erase]: a grammar with its cut points taken away. *)
From Verif Require Import Base Scanner Syntax Engine PegSpec.
Local Open Scope Z_scope.

Inductive derives (E : engine) : grammars -> bindings -> string -> term -> scanner -> tree -> scanner -> Prop :=
| D_lit : forall gs vs r x s pat v s',
    token_pattern (wrap_of gs) x (group (quote_meta x)) pat -> token E pat s (Succ v s') ->
    derives E gs vs r (TS x) s v s'
| D_re : forall gs vs r x s pat v s',
    token_pattern (wrap_of gs) x (group x) pat -> token E pat s (Succ v s') ->
    derives E gs vs r (TRE x) s v s'
| D_named : forall gs vs r n t s v s', derives E gs vs n t s v s' -> derives E gs vs r (TNamed n t) s v s'
| D_cut : forall gs vs r t s v s', derives E gs vs r t s v s' -> derives E gs vs r (TCut t) s v s'
| D_scoped : forall gs vs r t g s v s', derives E (g :: gs) vs r t s v s' -> derives E gs vs r (TScoped t g) s v s'
| D_rule : forall gs vs r x gs' t s v s', rule_body gs x gs' t -> derives E gs' vs x t s v s' ->
    derives E gs vs r (TRule x) s v s'
| D_seq : forall gs vs r ts s cs s', derives_all E gs vs ts s cs s' ->
    derives E gs vs r (TSeq ts) s (Node (tag_or r seqTag) XNone cs) s'
| D_alt : forall gs vs r ts i t s v s', nth_error ts i = Some t -> derives E gs vs "" t s v s' ->
    derives E gs vs r (TOneof ts) s (Node (tag_or r oneofTag) (XChoice i) [v]) s'
| D_rep : forall gs vs r t mn mx s cs s', derives_many E gs vs t s cs s' ->
    (mn <= length cs)%nat -> (mx = 0 \/ length cs <= mx)%nat ->
    derives E gs vs r (TQuant t mn mx) s (Node (tag_or r quantTag) XNone cs) s'
| D_look : forall gs vs r t s v s', derives E gs vs "" t s v s' ->
    derives E gs vs r (TLookAhead t) s (Node (tag_or r lookaheadTag) XNone [v]) s
| D_delim : forall gs vs r t sep a cs ce s v s' items v',
    derives E gs vs r (delim_seq t sep cs ce) s v s' ->
    delim_items cs ce v items -> delim_result r a items v' ->
    derives E gs vs r (TDelim t sep a cs ce) s v' s'
| D_ref : forall gs vs r i d s v t v' s', lookup i vs = Some v -> ref_term v t ->
    derives E [] vs i t s v' s' -> leaf_texts v' = leaf_texts v -> derives E gs vs r (TREF i d) s v' s'
| D_ref_default : forall gs vs r i d s v s', lookup i vs = None ->
    derives E [] vs i (TS d) s v s' -> derives E gs vs r (TREF i (Some d)) s v s'
with derives_all (E : engine) : grammars -> bindings -> list term -> scanner -> list tree -> scanner -> Prop :=
| DA_nil : forall gs vs s, derives_all E gs vs [] s [] s
| DA_cons : forall gs vs t ts s v s1 cs s', derives E gs vs "" t s v s1 ->
    derives_all E gs (bind vs (label t) v) ts s1 cs s' -> derives_all E gs vs (t :: ts) s (v :: cs) s'
with derives_many (E : engine) : grammars -> bindings -> term -> scanner -> list tree -> scanner -> Prop :=
| DM_nil : forall gs vs t s, derives_many E gs vs t s [] s
| DM_cons : forall gs vs t s v s1 cs s', derives E gs vs "" t s v s1 ->
    derives_many E gs vs t s1 cs s' -> derives_many E gs vs t s (v :: cs) s'.

(** Rule [r] of [g] derives the text between [s] and [s'] with tree [v]. *)
Definition rule_derives (E : engine) (g : grammar) (r : string) (s : scanner) (v : tree) (s' : scanner) : Prop :=
  derives E [g] [] "" (TRule r) s v s'.

(** Taking cut points away. *)
Fixpoint erase (t : term) : term :=
  match t with
  | TRule _ | TS _ | TRE _ | TREF _ _ | TExtRef _ => t
  | TSeq ts => TSeq (map erase ts)
  | TOneof ts => TOneof (map erase ts)
  | TStack ts => TStack (map erase ts)
  | TDelim t sep a cs ce => TDelim (erase t) (erase sep) a cs ce
  | TLookAhead t => TLookAhead (erase t)
  | TQuant t mn mx => TQuant (erase t) mn mx
  | TNamed n t => TNamed n (erase t)
  | TScoped t g => TScoped (erase t) (map (fun kv => (fst kv, erase (snd kv))) g)
  | TCut t => erase t
  end.
Definition erase_grammar (g : grammar) : grammar := map (fun kv => (fst kv, erase (snd kv))) g.

(** Cut points around terms that are neither references nor named (literals, say), and none
    inside a .wrapRE rule. *)
Definition unnamed (t : term) : bool := String.eqb (label t) "".
Definition wrap_uncut (g : grammar) : bool :=
  match lookup WrapRE g with Some w => no_cut w | None => true end.
Fixpoint tidy (t : term) : bool :=
  match t with
  | TRule _ | TS _ | TRE _ | TREF _ _ | TExtRef _ => true
  | TSeq ts => forallb tidy ts
  | TOneof ts => forallb tidy ts
  | TStack ts => forallb tidy ts
  | TDelim t sep _ _ _ => tidy t && tidy sep
  | TLookAhead t => tidy t
  | TQuant t _ _ => tidy t
  | TNamed _ t => tidy t
  | TScoped t g => tidy t && forallb (fun kv => tidy (snd kv)) g && wrap_uncut g
  | TCut t => negb (headrule t) && unnamed t && tidy t
  end.
Definition tidy_grammar (g : grammar) : bool := forallb (fun kv => tidy (snd kv)) g && wrap_uncut g.
