(** Rules that come back to themselves without end. *)
From Verif Require Import Base Scanner Syntax Engine PegSpec.

(** [X gs vs r s]: rule [r] is run at [s], in the scope [gs] and with the bindings [vs].
    [enters E X gs vs t s]: running [t] at [s] runs, before it can end, one of the calls in [X]. *)
Definition calls := grammars -> bindings -> string -> scanner -> Prop.
Inductive enters (E : engine) (X : calls) : grammars -> bindings -> term -> scanner -> Prop :=
| en_rule : forall gs vs x s, X gs vs x s -> enters E X gs vs (TRule x) s
| en_named : forall gs vs n t s, enters E X gs vs t s -> enters E X gs vs (TNamed n t) s
| en_cut : forall gs vs t s, enters E X gs vs t s -> enters E X gs vs (TCut t) s
| en_scoped : forall gs vs t g s, enters E X (g :: gs) vs t s -> enters E X gs vs (TScoped t g) s
| en_look : forall gs vs t s, enters E X gs vs t s -> enters E X gs vs (TLookAhead t) s
| en_seq : forall gs vs ts s, enters_seq E X gs vs ts s -> enters E X gs vs (TSeq ts) s
| en_oneof : forall gs vs ts s, enters_alt E X gs vs ts s -> enters E X gs vs (TOneof ts) s
| en_quant : forall gs vs t mn mx s, enters_rep E X gs vs mx t 0 s -> enters E X gs vs (TQuant t mn mx) s
| en_delim : forall gs vs t sep a cs ce s, enters E X gs vs (delim_seq t sep cs ce) s -> enters E X gs vs (TDelim t sep a cs ce) s
(** Elements of a sequence before it have matched; *)
with enters_seq (E : engine) (X : calls) : grammars -> bindings -> list term -> scanner -> Prop :=
| es_here : forall gs vs t ts s, enters E X gs vs t s -> enters_seq E X gs vs (t :: ts) s
| es_next : forall gs vs t ts s v s1, peg E gs vs "" t s (Succ v s1) -> enters_seq E X gs (bind vs (label t) v) ts s1 ->
    enters_seq E X gs vs (t :: ts) s
(** choices before it have failed; *)
with enters_alt (E : engine) (X : calls) : grammars -> bindings -> list term -> scanner -> Prop :=
| ea_here : forall gs vs t ts s, enters E X gs vs t s -> enters_alt E X gs vs (t :: ts) s
| ea_next : forall gs vs t ts s, peg E gs vs "" t s Fail -> enters_alt E X gs vs ts s -> enters_alt E X gs vs (t :: ts) s
(** [n] repetitions before it have matched. *)
with enters_rep (E : engine) (X : calls) : grammars -> bindings -> nat -> term -> nat -> scanner -> Prop :=
| er_here : forall gs vs mx t n s, room mx n -> enters E X gs vs t s -> enters_rep E X gs vs mx t n s
| er_next : forall gs vs mx t n s v s1, room mx n -> peg E gs vs "" t s (Succ v s1) -> enters_rep E X gs vs mx t (S n) s1 ->
    enters_rep E X gs vs mx t n s.

(** Each of the calls runs another one of them. *)
Definition endless (E : engine) (X : calls) : Prop :=
  forall gs vs x s, X gs vs x s -> forall gs' t, rule_body gs x gs' t -> enters E X gs' vs t s.
