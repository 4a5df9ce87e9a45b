(** Grammars whose parsers cannot panic. *)
From Verif Require Import Base Scanner Syntax Engine Parse PegSpec FlowSpec.
Local Open Scope Z_scope.

(** Every match of the pattern starts at the cursor and has one or two capture groups
    (parser/parser.go:196-203 and parser/scanner.go:185-208 panic otherwise). *)
Definition well_grouped (E : engine) (pat : bytes) : Prop :=
  forall t locs, re_find E (anchor ++ pat) t = Some locs ->
    exists b gs, locs = (0, b) :: gs /\ (length gs = 1 \/ length gs = 2)%nat.

(** The term mentions only rules defined in the grammars [gs] around it (innermost first),
    each in a place where compilation hooks it up; no back references, no stacks. *)
Fixpoint callable (gs : list grammar) (t : term) : bool :=
  match t with
  | TRule x => existsb (has x) gs
  | TS _ | TRE _ | TExtRef _ => true
  | TREF _ _ | TStack _ => false
  | TSeq ts | TOneof ts => forallb (callable gs) ts
  | TDelim t sep _ _ _ => callable gs t && callable gs sep
  | TLookAhead t | TQuant t _ _ | TNamed _ t => callable gs t
  | TCut t => negb (headrule t) && callable gs t
  | TScoped t g => callable (g :: gs) t &&
      forallb (fun kv => callable (g :: gs) (snd kv) && (is_alias (snd kv) || negb (headrule (snd kv)))) g
  end.
Definition callable_grammar (g : grammar) : bool :=
  forallb (fun kv => callable [g] (snd kv) && (is_alias (snd kv) || negb (headrule (snd kv)))) g.
