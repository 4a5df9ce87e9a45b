(** Specification for C81: nested grammars and the [.wrapRE] they stand under. *)
From Verif Require Import Base Syntax Resolve Compile.

(** [stands_in w t w' h]: when [w] is the [.wrapRE] around the term [t], the nested grammar [h]
    occurs in [t], at a place where [w'] is the innermost [.wrapRE] around it. *)
Inductive stands_in : option term -> term -> option term -> grammar -> Prop :=
| si_here : forall w t h, stands_in w (TScoped t h) w h
| si_term : forall w x t g w' h, lookup WrapRE g = Some x -> stands_in (Some x) t w' h -> stands_in w (TScoped t g) w' h
| si_term_out : forall w t g w' h, lookup WrapRE g = None -> stands_in w t w' h -> stands_in w (TScoped t g) w' h
| si_rule : forall w x t r u g w' h, lookup WrapRE g = Some x -> In (r, u) g -> stands_in (Some x) u w' h -> stands_in w (TScoped t g) w' h
| si_rule_out : forall w t r u g w' h, lookup WrapRE g = None -> In (r, u) g -> stands_in w u w' h -> stands_in w (TScoped t g) w' h
| si_seq : forall w ts t w' h, In t ts -> stands_in w t w' h -> stands_in w (TSeq ts) w' h
| si_oneof : forall w ts t w' h, In t ts -> stands_in w t w' h -> stands_in w (TOneof ts) w' h
| si_delim : forall w t sep a cs ce w' h, stands_in w t w' h -> stands_in w (TDelim t sep a cs ce) w' h
| si_sep : forall w t sep a cs ce w' h, stands_in w sep w' h -> stands_in w (TDelim t sep a cs ce) w' h
| si_look : forall w t w' h, stands_in w t w' h -> stands_in w (TLookAhead t) w' h
| si_quant : forall w t mn mx w' h, stands_in w t w' h -> stands_in w (TQuant t mn mx) w' h
| si_named : forall w n t w' h, stands_in w t w' h -> stands_in w (TNamed n t) w' h
| si_cut : forall w t w' h, stands_in w t w' h -> stands_in w (TCut t) w' h.

(** Some rule is a stack. *)
Definition has_stack (h : grammar) : Prop := exists r ls, In (r, TStack ls) h.

(** A term with the [.wrapRE] rules of its nested grammars taken out. *)
Fixpoint bare_of (t : term) : term :=
  match t with
  | TRule _ | TS _ | TRE _ | TREF _ _ | TExtRef _ | TStack _ => t
  | TSeq ts => TSeq (map bare_of ts)
  | TOneof ts => TOneof (map bare_of ts)
  | TDelim t sep a cs ce => TDelim (bare_of t) (bare_of sep) a cs ce
  | TLookAhead t => TLookAhead (bare_of t)
  | TQuant t mn mx => TQuant (bare_of t) mn mx
  | TNamed n t => TNamed n (bare_of t)
  | TCut t => TCut (bare_of t)
  | TScoped t g => TScoped (bare_of t) (adel WrapRE (map (fun kv => (fst kv, bare_of (snd kv))) g))
  end.

(** [became w h h']: the nested grammar [h], standing under [w], has become [h']: its other rules are
    unchanged but for the [.wrapRE] rules inside them, its own [.wrapRE] stays, and if it has none it
    has got [w], unless a rule of it is a stack. *)
Definition became (w : option term) (h h' : grammar) : Prop :=
  (forall r, r <> WrapRE -> option_map bare_of (lookup r h') = option_map bare_of (lookup r h)) /\
  match lookup WrapRE h with
  | Some x => exists x', lookup WrapRE h' = Some x' /\ bare_of x' = bare_of x
  | None => (has_stack h -> lookup WrapRE h' = None) /\ (~ has_stack h -> lookup WrapRE h' = w)
  end.

(** No nested grammar in a term. *)
Definition flat (t : term) : Prop := forall w w' h, ~ stands_in w t w' h.

(** No term of [t] is a reference to [.wrapRE]. *)
Fixpoint wrap_unused (t : term) : Prop :=
  match t with
  | TRule r => r <> WrapRE
  | TS _ | TRE _ | TREF _ _ | TExtRef _ => True
  | TSeq ts | TOneof ts | TStack ts => (fix go l := match l with [] => True | x :: l' => wrap_unused x /\ go l' end) ts
  | TDelim t sep _ _ _ => wrap_unused t /\ wrap_unused sep
  | TLookAhead t | TQuant t _ _ | TNamed _ t | TCut t => wrap_unused t
  | TScoped t g => wrap_unused t /\ (fix go l := match l with [] => True | kv :: l' => wrap_unused (snd kv) /\ go l' end) g
  end.

(** What a [.wrapRE] may be: a regexp, or a choice of literals and regexps. *)
Definition proper_wrap (x : term) : Prop :=
  match x with
  | TRE _ => True
  | TOneof ts => Forall (fun t => match t with TS _ | TRE _ => True | _ => False end) ts
  | _ => False
  end.
(** Every [.wrapRE] of a grammar and of the grammars nested in it is one of these. *)
Definition proper_wraps (g : grammar) : Prop :=
  (forall x, In (WrapRE, x) g -> proper_wrap x) /\
  forall r t w w' h x, In (r, t) g -> stands_in w t w' h -> In (WrapRE, x) h -> proper_wrap x.
