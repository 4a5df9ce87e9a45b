(** The grammars for which unparsing writes the text that was parsed. *)
From Verif Require Import Base Scanner Syntax.

(** Literals, patterns, references, sequences, choices, repetitions, look-aheads, names, cut points, and lists that are not
    associative and have no optional separators. *)
Fixpoint writable (t : term) : bool :=
  match t with
  | TRule _ | TS _ | TRE _ => true
  | TSeq ts | TOneof ts => forallb writable ts
  | TDelim t sep a cs ce => writable t && writable sep && match a with NonAssociative => true | _ => false end && negb cs && negb ce
  | TLookAhead t | TQuant t _ _ | TNamed _ t | TCut t => writable t
  | TREF _ _ | TExtRef _ | TStack _ | TScoped _ _ => false
  end.
Definition writable_grammar (g : grammar) : bool := forallb (fun kv => writable (snd kv)) g.

(** Terms that give their trees the name of the rule. *)
Fixpoint composite (t : term) : bool :=
  match t with
  | TSeq _ | TOneof _ | TQuant _ _ _ | TLookAhead _ | TDelim _ _ NonAssociative _ _ => true
  | TCut t => composite t
  | _ => false
  end.

(** The last element. *)
Definition last_error {A} (l : list A) : option A := hd_error (rev l).
(** The tree does not belong to a list. *)
Definition unlisted (v : tree) : Prop := forall tag a cs, v <> Node tag (XAssoc a) cs.
