(** What can be said of a report of an error without printing it. *)
From Verif Require Import Base Scanner ScannerSpec Syntax Engine Resolve Compile Parse GotreeSpec Report.

(** [part y x]: the error [y] is [x] or one of its causes, at any depth. *)
Inductive part : fault -> fault -> Prop :=
| part_self : forall x, part x x
| part_cause : forall rule msg causes x y, In (CErr x) causes -> part y x -> part y (FParse rule msg causes).
(** A cause named anywhere in a report. *)
Definition mentioned (y : cause) (x : fault) : Prop := exists rule msg causes, part (FParse rule msg causes) x /\ In y causes.

(** The report has an error that is its own cause. *)
Definition circular (x : fault) : Prop := mentioned CSelf x.
(** All scanners that it shows can be read. *)
Definition legible (x : fault) : Prop :=
  forall failed_at input, mentioned (CActual failed_at input) x -> exists s, input = Some s /\ sstring s <> None.

(** The error value that a report belongs to. *)
Definition belongs (x : fault) (e : perr) : Prop :=
  match x with
  | FParse rule _ _ => e = EParse rule \/ exists cp, e = EFatal rule cp
  | FUnconsumed s => exists t, e = EUnconsumed s t
  | FOther => True
  end.

(** Why an error is there: another error; or a token that is not there, where [tok x re] says that [re] is the regular expression
    of the literal [x]; or a reference or an external without value; or a choice without options. *)
Definition reason (quote : bytes -> bytes) (E : engine) (tok : bytes -> bytes -> Prop) (msg : bytes) (causes : list cause) : Prop :=
  (exists x, In (CErr x) causes) \/ In CSelf causes \/
  (exists w re failed_at input, causes = [CExpect w; CActual failed_at input; CCalls] /\ eat_token E re failed_at = TokNo /\
     (w = re \/ exists x, w = quote x /\ tok x re)) \/
  In msg (map bs ["Backref not matched"; "Backref not found"; "External handler not found"]%string) \/
  (msg = bs "None of the available options could be satisfied" /\ causes = [CCalls]).
(** The regular expression of a literal under a [.wrapRE]. *)
Definition literal_regexp (x re : bytes) : Prop := exists wrap re0, apply_wrap wrap x (group (quote_meta x)) = COk re0 /\ re = anchor ++ re0.

(** Neither externals nor escapes. *)
Definition alone (c : config) : Prop := cf_ext c = [] /\ cf_esc c = None.

(** No repetition that must find something. *)
Fixpoint undemanding (t : term) : Prop :=
  match t with
  | TRule _ | TS _ | TRE _ | TExtRef _ | TREF _ _ => True
  | TSeq ts | TOneof ts | TStack ts => (fix all (ts : list term) : Prop := match ts with [] => True | t :: ts' => undemanding t /\ all ts' end) ts
  | TDelim t sep _ _ _ => undemanding t /\ undemanding sep
  | TLookAhead t | TNamed _ t | TCut t => undemanding t
  | TQuant t mn _ => mn = 0 /\ undemanding t
  | TScoped t g => undemanding t /\ (fix all (g : list (string * term)) : Prop := match g with [] => True | kv :: g' => undemanding (snd kv) /\ all g' end) g
  end.
Definition undemanding_grammar (g : grammar) : Prop := forall r t, In (r, t) g -> undemanding t.

(** [ending l text]: a line of the text ends with [l]. *)
Definition line_of (l text : bytes) : Prop := exists ls, lines text ls /\ In l ls.
Definition ending (l text : bytes) : Prop := exists p, line_of (p ++ l) text.
