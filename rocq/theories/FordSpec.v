(** Textbook parsing expression grammars (Ford, "Parsing Expression Grammars", POPL 2004) as
    recognisers over byte strings: [Some rest] = matched, leaving [rest]; [None] = failed.
    Nothing about trees, scanners, tags, scopes or cut points. *)
From Verif Require Import Base Syntax Engine PegSpec.
Local Open Scope Z_scope.

Definition less (m : option nat) : option nat := option_map pred m.

Inductive ford (E : engine) (g : grammar) : term -> bytes -> option bytes -> Prop :=
| F_lit : forall x r, ford E g (TS x) (x ++ r) (Some r)
| F_lit_no : forall x t, (~ exists r, t = x ++ r) -> ford E g (TS x) t None
| F_re : forall x t b gs, re_find E (anchor ++ group x) t = Some ((0, b) :: gs) ->
    ford E g (TRE x) t (Some (skipn (Z.to_nat b) t))
| F_re_no : forall x t, re_find E (anchor ++ group x) t = None -> ford E g (TRE x) t None
| F_rule : forall r u t o, lookup r g = Some u -> ford E g u t o -> ford E g (TRule r) t o
| F_named : forall n u t o, ford E g u t o -> ford E g (TNamed n u) t o
| F_seq : forall us t o, ford_seq E g us t o -> ford E g (TSeq us) t o
| F_choice : forall us t o, ford_choice E g us t o -> ford E g (TOneof us) t o
| F_quant : forall u mn mx t o, ford_rep E g u mn (match mx with O => None | _ => Some mx end) t o ->
    ford E g (TQuant u mn mx) t o
| F_and : forall u t r, ford E g u t (Some r) -> ford E g (TLookAhead u) t (Some t)
| F_and_no : forall u t, ford E g u t None -> ford E g (TLookAhead u) t None
(** u:sep  is  sep? u (sep u)* sep?, the outer separators when allowed *)
| F_delim : forall u sep a (cs ce : bool) t o,
    ford E g (TSeq ((if cs then [TQuant sep 0 1] else [])
                    ++ [TSeq [u; TQuant (TSeq [sep; u]) 0 0]]
                    ++ (if ce then [TQuant sep 0 1] else []))) t o ->
    ford E g (TDelim u sep a cs ce) t o
with ford_seq (E : engine) (g : grammar) : list term -> bytes -> option bytes -> Prop :=
| FS_nil : forall t, ford_seq E g [] t (Some t)
| FS_cons : forall u us t t1 o, ford E g u t (Some t1) -> ford_seq E g us t1 o -> ford_seq E g (u :: us) t o
| FS_no : forall u us t, ford E g u t None -> ford_seq E g (u :: us) t None
with ford_choice (E : engine) (g : grammar) : list term -> bytes -> option bytes -> Prop :=
| FC_nil : forall t, ford_choice E g [] t None
| FC_here : forall u us t r, ford E g u t (Some r) -> ford_choice E g (u :: us) t (Some r)
| FC_next : forall u us t o, ford E g u t None -> ford_choice E g us t o -> ford_choice E g (u :: us) t o
(** at least [mn] more, at most [mx] more *)
with ford_rep (E : engine) (g : grammar) : term -> nat -> option nat -> bytes -> option bytes -> Prop :=
| FR_more : forall u mn mx t t1 o, mx <> Some O -> ford E g u t (Some t1) ->
    ford_rep E g u (pred mn) (less mx) t1 o -> ford_rep E g u mn mx t o
| FR_stop : forall u mx t, ford E g u t None -> ford_rep E g u O mx t (Some t)
| FR_short : forall u mn mx t, ford E g u t None -> ford_rep E g u (S mn) mx t None
| FR_full : forall u t, ford_rep E g u O (Some O) t (Some t)
| FR_never : forall u mn t, ford_rep E g u (S mn) (Some O) t None.

Scheme ford_mut := Minimality for ford Sort Prop
  with ford_seq_mut := Minimality for ford_seq Sort Prop
  with ford_choice_mut := Minimality for ford_choice Sort Prop
  with ford_rep_mut := Minimality for ford_rep Sort Prop.
Combined Scheme ford_mutind from ford_mut, ford_seq_mut, ford_choice_mut, ford_rep_mut.

(** The terms that have a textbook counterpart. *)
Fixpoint textbook (E : engine) (t : term) : Prop :=
  match t with
  | TRule _ => True
  | TS x => re_lit_ok E x = true
  | TRE x => re_valid E x = true /\ re_valid E (anchor ++ group x) = true /\ (re_groups E x <= 1)%nat
  | TSeq ts | TOneof ts => (fix go l := match l with [] => True | u :: l' => textbook E u /\ go l' end) ts
  | TQuant u _ _ | TNamed _ u | TLookAhead u => textbook E u
  | TDelim u sep _ _ _ => textbook E u /\ textbook E sep
  | TREF _ _ | TExtRef _ | TStack _ | TScoped _ _ | TCut _ => False
  end.
Definition textbook_grammar (E : engine) (g : grammar) : Prop :=
  (forall r t, lookup r g = Some t -> textbook E t) /\ lookup WrapRE g = None.
