(** The grammars that the code generator can write. *)
From Verif Require Import Base Scanner Syntax GoSpec.

(** Strings that a raw string literal can hold, once their back quotes are taken care of. *)
Definition clean (s : bytes) : Prop := utf8 s /\ ~ In cr s.
(** Names that are put between back quotes as they are. *)
Definition raw_name (n : string) : Prop := clean (bs n) /\ ~ In "`"%char (bs n).
(** Names of rules, which are put between double quotes as they are. *)
Definition rule_name (n : string) : Prop :=
  clean (bs n) /\ (forall c, In c ["`"; """"; "\"; "@"; nl]%char -> ~ In c (bs n)).

Inductive writable : term -> Prop :=
| wr_at : writable (TRule "@")
| wr_rule r : raw_name r -> ~ In "@"%char (bs r) -> writable (TRule r)
| wr_lit s : clean s -> writable (TS s)
| wr_re s : clean s -> writable (TRE s)
| wr_ext s : clean (bs s) -> writable (TExtRef s)
| wr_ref i d : raw_name i -> match d with Some s => clean s | None => True end -> writable (TREF i d)
| wr_seq ts : Forall writable ts -> writable (TSeq ts)
| wr_oneof ts : Forall writable ts -> writable (TOneof ts)
| wr_stack ts : Forall writable ts -> writable (TStack ts)
| wr_delim t sep a cs ce : writable t -> writable sep -> writable (TDelim t sep a cs ce)
| wr_look t : writable t -> writable (TLookAhead t)
| wr_quant t mn mx : writable t -> writable (TQuant t mn mx)
| wr_named n t : raw_name n -> writable t -> writable (TNamed n t)
| wr_cut t : writable t -> writable (TCut t)
| wr_scoped t g : writable t -> writable_grammar g -> writable (TScoped t g)
with writable_grammar : grammar -> Prop :=
| wr_grammar g : NoDup (keys g) -> Forall (fun kv : string * term => rule_name (fst kv) /\ writable (snd kv)) g -> writable_grammar g.

(** The quantifiers ?, * and +. *)
Definition simple_quant (mn mx : nat) : Prop := In (mn, mx) [(0, 0); (1, 0); (0, 1)].
(** [quantified mn mx t]: [t] has a part that is quantified so. *)
Inductive quantified (mn mx : nat) : term -> Prop :=
| qu_here t : quantified mn mx (TQuant t mn mx)
| qu_seq ts : Exists (quantified mn mx) ts -> quantified mn mx (TSeq ts)
| qu_oneof ts : Exists (quantified mn mx) ts -> quantified mn mx (TOneof ts)
| qu_stack ts : Exists (quantified mn mx) ts -> quantified mn mx (TStack ts)
| qu_delim_term t sep a cs ce : quantified mn mx t -> quantified mn mx (TDelim t sep a cs ce)
| qu_delim_sep t sep a cs ce : quantified mn mx sep -> quantified mn mx (TDelim t sep a cs ce)
| qu_look t : quantified mn mx t -> quantified mn mx (TLookAhead t)
| qu_quant t mn' mx' : quantified mn mx t -> quantified mn mx (TQuant t mn' mx')
| qu_named n t : quantified mn mx t -> quantified mn mx (TNamed n t)
| qu_cut t : quantified mn mx t -> quantified mn mx (TCut t)
| qu_scoped_term t g : quantified mn mx t -> quantified mn mx (TScoped t g)
| qu_scoped_rule t g : Exists (fun kv : string * term => quantified mn mx (snd kv)) g -> quantified mn mx (TScoped t g).
Definition simple_grammar (g : grammar) : Prop :=
  forall r t mn mx, In (r, t) g -> quantified mn mx t -> simple_quant mn mx.

(** * Wrappers *)

(** Regular expressions, and alternatives of texts and regular expressions. *)
Definition token_term (t : term) : Prop := exists s, t = TS s \/ t = TRE s.
Definition wrapper (t : term) : Prop := token_term t \/ exists ts, t = TOneof ts /\ Forall token_term ts.

(** Nothing refers to .wrapRE as a rule, and what is called so is a wrapper. *)
Inductive steady : term -> Prop :=
| ca_rule r : r <> WrapRE -> steady (TRule r)
| ca_lit s : steady (TS s)
| ca_re s : steady (TRE s)
| ca_ext s : steady (TExtRef s)
| ca_ref i d : steady (TREF i d)
| ca_seq ts : Forall steady ts -> steady (TSeq ts)
| ca_oneof ts : Forall steady ts -> steady (TOneof ts)
| ca_stack ts : Forall steady ts -> steady (TStack ts)
| ca_delim t sep a cs ce : steady t -> steady sep -> steady (TDelim t sep a cs ce)
| ca_look t : steady t -> steady (TLookAhead t)
| ca_quant t mn mx : steady t -> steady (TQuant t mn mx)
| ca_named n t : steady t -> steady (TNamed n t)
| ca_cut t : steady t -> steady (TCut t)
| ca_scoped t g : steady t -> steady_grammar g -> steady (TScoped t g)
with steady_grammar : grammar -> Prop :=
| ca_grammar g : Forall (fun kv : string * term => (fst kv = WrapRE -> wrapper (snd kv)) /\ steady (snd kv)) g -> steady_grammar g.

(** [inherits w t u]: [u] is [t] with the wrapper [w] written into nested grammars that have none. *)
Definition own_or (w : option term) (g : grammar) : option term := match lookup WrapRE g with Some x => Some x | None => w end.
Inductive inherits : option term -> term -> term -> Prop :=
| ih_rule w r : inherits w (TRule r) (TRule r)
| ih_lit w s : inherits w (TS s) (TS s)
| ih_re w s : inherits w (TRE s) (TRE s)
| ih_ext w s : inherits w (TExtRef s) (TExtRef s)
| ih_ref w i d : inherits w (TREF i d) (TREF i d)
| ih_seq w ts us : Forall2 (inherits w) ts us -> inherits w (TSeq ts) (TSeq us)
| ih_oneof w ts us : Forall2 (inherits w) ts us -> inherits w (TOneof ts) (TOneof us)
| ih_stack w ts : inherits w (TStack ts) (TStack ts)
| ih_delim w t sep t' sep' a cs ce : inherits w t t' -> inherits w sep sep' -> inherits w (TDelim t sep a cs ce) (TDelim t' sep' a cs ce)
| ih_look w t t' : inherits w t t' -> inherits w (TLookAhead t) (TLookAhead t')
| ih_quant w t t' mn mx : inherits w t t' -> inherits w (TQuant t mn mx) (TQuant t' mn mx)
| ih_named w n t t' : inherits w t t' -> inherits w (TNamed n t) (TNamed n t')
| ih_cut w t t' : inherits w t t' -> inherits w (TCut t) (TCut t')
| ih_scoped w t g t' g' more : inherits (own_or w g) t t' ->
    Forall2 (fun kv kv' : string * term => fst kv = fst kv' /\ inherits (own_or w g) (snd kv) (snd kv')) g g' ->
    more = [] \/ (exists x, w = Some x /\ lookup WrapRE g = None /\ more = [(WrapRE, x)]) ->
    inherits w (TScoped t g) (TScoped t' (g' ++ more)).
