(** Which grammars can be compiled. *)
From Verif Require Import Base Scanner Syntax Engine PegSpec StackSpec.

(** The literal or pattern [s], with the regexp [pre] for it, gives a regexp that can be compiled. *)
Definition usable (E : engine) (wrap : option term) (s pre : bytes) : Prop :=
  exists pat, token_pattern wrap s pre pat /\ re_valid E (bs "(?m)\A" ++ pat) = true.

(** A term that can be compiled where [wrap] is the .wrapRE rule. *)
Inductive compiles (E : engine) : option term -> term -> Prop :=
| cm_rule : forall w r, compiles E w (TRule r)
| cm_ref : forall w i d, compiles E w (TREF i d)
| cm_ext : forall w s, compiles E w (TExtRef s)
| cm_lit : forall w s, usable E w s (bs "(" ++ quote_meta s ++ bs ")") -> compiles E w (TS s)
| cm_re : forall w s, usable E w s (bs "(" ++ s ++ bs ")") -> compiles E w (TRE s)
| cm_seq : forall w ts, Forall (compiles E w) ts -> compiles E w (TSeq ts)
| cm_oneof : forall w ts, Forall (compiles E w) ts -> compiles E w (TOneof ts)
| cm_delim : forall w t sep a cs ce, compiles E w t -> compiles E w sep -> compiles E w (TDelim t sep a cs ce)
| cm_look : forall w t, compiles E w t -> compiles E w (TLookAhead t)
| cm_quant : forall w t mn mx, compiles E w t -> compiles E w (TQuant t mn mx)
| cm_named : forall w n t, compiles E w t -> compiles E w (TNamed n t)
| cm_cut : forall w t, compiles E w t -> compiles E w (TCut t)
| cm_scoped : forall w t g v,
    v = match lookup ".wrapRE"%string g with Some x => Some x | None => w end ->
    Forall (fun kv => exists u, alias_body g (snd kv) u /\ compiles E v u) g ->
    compiles E v t -> compiles E w (TScoped t g).

(** A grammar whose rules all lead to terms that can be compiled. *)
Definition compiles_grammar (E : engine) (g : grammar) : Prop :=
  forall r t, lookup r g = Some t -> exists u, alias_body g t u /\ compiles E (lookup ".wrapRE"%string g) u.

(** No stacks in nested grammars (in those, too, they would become chains of rules first). *)
Fixpoint tame (t : term) : bool :=
  match t with
  | TRule _ | TS _ | TRE _ | TExtRef _ | TREF _ _ => true
  | TSeq ts | TOneof ts | TStack ts => forallb tame ts
  | TDelim t sep _ _ _ => tame t && tame sep
  | TLookAhead t | TQuant t _ _ | TNamed _ t | TCut t => tame t
  | TScoped t g => tame t && forallb (fun kv => tame (snd kv) && match snd kv with TStack _ => false | _ => true end) g
  end.
