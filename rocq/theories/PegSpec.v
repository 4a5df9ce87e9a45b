(** What a grammar means: a parsing-expression-grammar reading of terms, written as
    inference rules over terms (not over compiled parsers).

    Outcomes: success with a tree and the rest of the input, ordinary failure (an enclosing
    choice or repetition may go on), or abort (failure after a cut point: the whole parse is
    over).  A cut point is an element of a sequence; once it has matched, failure of the
    remaining elements of that sequence is an abort. *)
From Verif Require Import Base Scanner Syntax Engine.
Local Open Scope Z_scope.

(** The grammars in scope, innermost first. *)
Definition grammars := list grammar.
(** Values bound by the sequences entered so far, for back references. *)
Definition bindings := list (string * tree).

Inductive outcome := Succ (v : tree) (rest : scanner) | Fail | Abort.

Definition tag_or (rule alt : string) : string := if String.eqb rule "" then alt else rule.

(** The name a sequence binds an element to ("" = none). *)
Fixpoint label (t : term) : string :=
  match t with
  | TNamed n t' => if String.eqb n "" then label t' else n
  | TRule r => r
  | TQuant t' _ _ => label t'
  | _ => ""
  end.
Definition bind (vs : bindings) (name : string) (v : tree) : bindings :=
  if String.eqb name "" then vs else aset name v vs.

(** * Rules *)

(** The body of a rule, aliases followed inside the grammar that defines it. *)
Inductive alias_body (g : grammar) : term -> term -> Prop :=
| ab_end : forall t, (forall r, t <> TRule r) -> alias_body g t t
| ab_step : forall r t t', lookup r g = Some t -> alias_body g t t' -> alias_body g (TRule r) t'.

(** Lexical lookup: the innermost grammar defining the rule, and the grammars its body sees. *)
Inductive rule_body : grammars -> string -> grammars -> term -> Prop :=
| rb_here : forall g gs r t t', lookup r g = Some t -> alias_body g t t' ->
    rule_body (g :: gs) r (g :: gs) t'
| rb_outer : forall g gs r gs' t, lookup r g = None -> rule_body gs r gs' t ->
    rule_body (g :: gs) r gs' t.

(** * Tokens *)

Definition hole : bytes := bs "()".

(** The first hole of [w] filled with [x]; a text without hole stays. *)
Definition fills (w x out : bytes) : Prop :=
  (exists a b, w = a ++ hole ++ b /\ out = a ++ x ++ b /\
     forall a' b', w = a' ++ hole ++ b' -> (length a <= length a')%nat) \/
  ((forall a b, w <> a ++ hole ++ b) /\ out = w).

(** The .wrapRE in force. *)
Fixpoint wrap_of (gs : grammars) : option term :=
  match gs with
  | [] => None
  | g :: gs' => match lookup WrapRE g with Some w => Some w | None => wrap_of gs' end
  end.

(** The pattern of a token with text [x] (and bare pattern [pre]) under a .wrapRE. *)
Definition token_pattern (wrap : option term) (x pre pat : bytes) : Prop :=
  match wrap with
  | None => pat = pre
  | Some (TRE w) => fills w (bs "(?:" ++ pre ++ bs ")") pat
  | Some (TOneof ts) =>
      exists others w, ts = others ++ [w] /\
        let listed := In (TS x) others \/ In (TRE x) others in
        (listed /\ pat = pre) \/
        (~ listed /\ exists w', w = TRE w' /\ fills w' (bs "(?:" ++ pre ++ bs ")") pat)
  | _ => False
  end.

(** A token matches at the start of the input; its leaf is the only group, or the second of
    two groups, of the pattern. *)
Inductive token (E : engine) (pat : bytes) (s : scanner) : outcome -> Prop :=
| tok_fail : forall t, sslice s = Some t -> re_find E (anchor ++ pat) t = None -> token E pat s Fail
| tok_one : forall t b g, sslice s = Some t -> re_find E (anchor ++ pat) t = Some [(0, b); g] ->
    token E pat s (Succ (Leaf (slice s (fst g) (snd g))) (skip s b))
| tok_two : forall t b h g, sslice s = Some t -> re_find E (anchor ++ pat) t = Some [(0, b); h; g] ->
    token E pat s (Succ (Leaf (slice s (fst g) (snd g))) (skip s b)).

(** * Cut points *)

(** The element is a cut point: directly, or as the whole body of the rule it names. *)
Inductive commits : grammars -> term -> Prop :=
| cm_cut : forall gs t, commits gs (TCut t)
| cm_named : forall gs n t, commits gs t -> commits gs (TNamed n t)
| cm_scoped : forall gs t g, commits (g :: gs) t -> commits gs (TScoped t g)
| cm_rule : forall gs r gs' t, rule_body gs r gs' t -> commits gs' t -> commits gs (TRule r).

(** * Delimited lists *)

(** x:y reads x (y x)*, with optional leading and trailing separators. *)
Definition delim_seq (t sep : term) (cs ce : bool) : term :=
  TSeq ((if cs then [Opt sep] else []) ++ [TSeq [t; Any (TSeq [sep; t])]]
        ++ (if ce then [Opt sep] else [])).

(** Left and right nesting of an alternating list item, sep, item, sep, ... *)
Inductive nest_left (tag : string) : list tree -> tree -> Prop :=
| nl_one : forall v, nest_left tag [v] v
| nl_more : forall l v s x, nest_left tag l v ->
    nest_left tag (l ++ [s; x]) (Node tag (XAssoc LeftToRight) [v; s; x]).
Inductive nest_right (tag : string) : list tree -> tree -> Prop :=
| nr_one : forall v, nest_right tag [v] v
| nr_more : forall l v s x, nest_right tag l v ->
    nest_right tag (x :: s :: l) (Node tag (XAssoc RightToLeft) [x; s; v]).

(** The items and separators of a delimited list; a leading separator is preceded, a
    trailing one followed, by [Empty]. *)
Definition pair_of (p : tree) (s x : tree) : Prop := exists tag ex rest, p = Node tag ex (s :: x :: rest).
Inductive pairs_flat : list tree -> list tree -> Prop :=
| pf_nil : pairs_flat [] []
| pf_cons : forall p s x ps l, pair_of p s x -> pairs_flat ps l -> pairs_flat (p :: ps) (s :: x :: l).
Definition opt_sep (t : option tree) (o : list tree) (lead : bool) : Prop :=
  match t with
  | None => o = []
  | Some (Node _ _ []) => o = []
  | Some (Node _ _ (s :: _)) => o = if lead then [Empty; s] else [s; Empty]
  | Some _ => False
  end.
Definition delim_items (cs ce : bool) (v : tree) (items : list tree) : Prop :=
  exists tag ex cs1 (core : tree) cs2 lead trail first more pairs,
    v = Node tag ex (cs1 ++ core :: cs2) /\
    length cs1 = (if cs then 1 else 0)%nat /\
    opt_sep (if cs then hd_error cs1 else None) lead true /\
    opt_sep (if ce then hd_error cs2 else None) trail false /\
    (ce = true -> cs2 <> []) /\
    (exists t1 x1 t2 x2 r, core = Node t1 x1 (first :: Node t2 x2 more :: r)) /\
    pairs_flat more pairs /\
    items = lead ++ first :: pairs ++ trail.

Definition delim_result (rule : string) (a : assoc) (items : list tree) (v : tree) : Prop :=
  match a with
  | NonAssociative => v = Node (tag_or rule delimTag) (XAssoc NonAssociative) items
  | LeftToRight => ((length items <= 1)%nat /\ v = Node (tag_or rule delimTag) (XAssoc NonAssociative) items)
                   \/ ((1 < length items)%nat /\ nest_left (tag_or rule delimTag) items v)
  | RightToLeft => ((length items <= 1)%nat /\ v = Node (tag_or rule delimTag) (XAssoc NonAssociative) items)
                   \/ ((1 < length items)%nat /\ nest_right (tag_or rule delimTag) items v)
  end.

(** * Back references *)

(** The literal term that stands for a bound value. *)
Inductive ref_term : tree -> term -> Prop :=
| rt_leaf : forall s x, sstring s = Some x -> ref_term (Leaf s) (TS x)
| rt_node : forall tag ex cs ts, Forall2 ref_term cs ts -> ref_term (Node tag ex cs) (TSeq ts).

Definition leaf_texts (t : tree) : list (option bytes) := map sstring (leaves t).

(** Same nodes and leaves, whatever the texts. *)
Inductive same_shape : tree -> tree -> Prop :=
| ss_leaf : forall a b, same_shape (Leaf a) (Leaf b)
| ss_node : forall t x cs t' x' cs', Forall2 same_shape cs cs' ->
    same_shape (Node t x cs) (Node t' x' cs').

(** * Terms *)

Definition room (mx n : nat) : Prop := mx = O \/ (n < mx)%nat.

Inductive peg (E : engine) : grammars -> bindings -> string -> term -> scanner -> outcome -> Prop :=
| P_lit : forall gs vs r x s pat o,
    token_pattern (wrap_of gs) x (group (quote_meta x)) pat -> token E pat s o ->
    peg E gs vs r (TS x) s o
| P_re : forall gs vs r x s pat o,
    token_pattern (wrap_of gs) x (group x) pat -> token E pat s o ->
    peg E gs vs r (TRE x) s o
| P_named : forall gs vs r n t s o, peg E gs vs n t s o -> peg E gs vs r (TNamed n t) s o
| P_cut : forall gs vs r t s o, peg E gs vs r t s o -> peg E gs vs r (TCut t) s o
| P_scoped : forall gs vs r t g s o, peg E (g :: gs) vs r t s o -> peg E gs vs r (TScoped t g) s o
| P_rule : forall gs vs r x gs' t s o,
    rule_body gs x gs' t -> peg E gs' vs x t s o -> peg E gs vs r (TRule x) s o
| P_seq : forall gs vs r ts s o, peg_seq E gs vs false r ts [] s o -> peg E gs vs r (TSeq ts) s o
| P_oneof : forall gs vs r ts s o, peg_alt E gs vs r 0 ts s o -> peg E gs vs r (TOneof ts) s o
| P_quant : forall gs vs r t mn mx s o, peg_rep E gs vs r mn mx t [] s o ->
    peg E gs vs r (TQuant t mn mx) s o
| P_delim : forall gs vs r t sep a cs ce s v s' items v',
    peg E gs vs r (delim_seq t sep cs ce) s (Succ v s') ->
    delim_items cs ce v items -> delim_result r a items v' ->
    peg E gs vs r (TDelim t sep a cs ce) s (Succ v' s')
| P_delim_no : forall gs vs r t sep a cs ce s o, o = Fail \/ o = Abort ->
    peg E gs vs r (delim_seq t sep cs ce) s o -> peg E gs vs r (TDelim t sep a cs ce) s o
| P_look : forall gs vs r t s v s', peg E gs vs "" t s (Succ v s') ->
    peg E gs vs r (TLookAhead t) s (Succ (Node (tag_or r lookaheadTag) XNone [v]) s)
| P_look_no : forall gs vs r t s o, o = Fail \/ o = Abort -> peg E gs vs "" t s o ->
    peg E gs vs r (TLookAhead t) s o
| P_ref : forall gs vs r i d s v t v' s', lookup i vs = Some v -> ref_term v t ->
    peg E [] vs i t s (Succ v' s') -> leaf_texts v' = leaf_texts v ->
    peg E gs vs r (TREF i d) s (Succ v' s')
| P_ref_differs : forall gs vs r i d s v t v' s', lookup i vs = Some v -> ref_term v t ->
    peg E [] vs i t s (Succ v' s') -> leaf_texts v' <> leaf_texts v ->
    peg E gs vs r (TREF i d) s Fail
| P_ref_no : forall gs vs r i d s v t o, lookup i vs = Some v -> ref_term v t -> o = Fail \/ o = Abort ->
    peg E [] vs i t s o -> peg E gs vs r (TREF i d) s o
| P_ref_default : forall gs vs r i d s o, lookup i vs = None ->
    peg E [] vs i (TS d) s o -> peg E gs vs r (TREF i (Some d)) s o
| P_ref_unbound : forall gs vs r i s, lookup i vs = None -> peg E gs vs r (TREF i None) s Fail
with peg_seq (E : engine)
  : grammars -> bindings -> bool -> string -> list term -> list tree -> scanner -> outcome -> Prop :=
| PS_done : forall gs vs cut r acc s,
    peg_seq E gs vs cut r [] acc s (Succ (Node (tag_or r seqTag) XNone acc) s)
| PS_next : forall gs vs cut cut' r t ts acc s v s1 o,
    peg E gs vs "" t s (Succ v s1) ->
    (commits gs t /\ cut' = true \/ ~ commits gs t /\ cut' = cut) ->
    peg_seq E gs (bind vs (label t) v) cut' r ts (acc ++ [v]) s1 o ->
    peg_seq E gs vs cut r (t :: ts) acc s o
| PS_fail : forall gs vs (cut : bool) r t ts acc s, peg E gs vs "" t s Fail ->
    peg_seq E gs vs cut r (t :: ts) acc s (if cut then Abort else Fail)
| PS_abort : forall gs vs cut r t ts acc s, peg E gs vs "" t s Abort ->
    peg_seq E gs vs cut r (t :: ts) acc s Abort
with peg_alt (E : engine)
  : grammars -> bindings -> string -> nat -> list term -> scanner -> outcome -> Prop :=
| PA_none : forall gs vs r i s, peg_alt E gs vs r i [] s Fail
| PA_here : forall gs vs r i t ts s v s', peg E gs vs "" t s (Succ v s') ->
    peg_alt E gs vs r i (t :: ts) s (Succ (Node (tag_or r oneofTag) (XChoice i) [v]) s')
| PA_next : forall gs vs r i t ts s o, peg E gs vs "" t s Fail ->
    peg_alt E gs vs r (S i) ts s o -> peg_alt E gs vs r i (t :: ts) s o
| PA_abort : forall gs vs r i t ts s, peg E gs vs "" t s Abort ->
    peg_alt E gs vs r i (t :: ts) s Abort
with peg_rep (E : engine)
  : grammars -> bindings -> string -> nat -> nat -> term -> list tree -> scanner -> outcome -> Prop :=
| PR_more : forall gs vs r mn mx t acc s v s1 o, room mx (length acc) ->
    peg E gs vs "" t s (Succ v s1) -> peg_rep E gs vs r mn mx t (acc ++ [v]) s1 o ->
    peg_rep E gs vs r mn mx t acc s o
| PR_stop : forall gs vs r mn mx t acc s, room mx (length acc) -> peg E gs vs "" t s Fail ->
    peg_rep E gs vs r mn mx t acc s
      (if Nat.leb mn (length acc) then Succ (Node (tag_or r quantTag) XNone acc) s else Fail)
| PR_full : forall gs vs r mn mx t acc s, ~ room mx (length acc) ->
    peg_rep E gs vs r mn mx t acc s
      (if Nat.leb mn (length acc) then Succ (Node (tag_or r quantTag) XNone acc) s else Fail)
| PR_abort : forall gs vs r mn mx t acc s, room mx (length acc) -> peg E gs vs "" t s Abort ->
    peg_rep E gs vs r mn mx t acc s Abort.

Scheme peg_mut := Minimality for peg Sort Prop
  with peg_seq_mut := Minimality for peg_seq Sort Prop
  with peg_alt_mut := Minimality for peg_alt Sort Prop
  with peg_rep_mut := Minimality for peg_rep Sort Prop.
Combined Scheme peg_mutind from peg_mut, peg_seq_mut, peg_alt_mut, peg_rep_mut.

(** * The grammars the reading covers *)

(** Does the term end in a bare rule reference. *)
Fixpoint headrule (t : term) : bool :=
  match t with
  | TRule _ => true
  | TNamed _ t' => headrule t'
  | TScoped t' _ => headrule t'
  | _ => false
  end.
Definition is_alias (t : term) : bool := match t with TRule _ => true | _ => false end.

(** No external references; rules of nested grammars are aliases or do not end in a bare
    rule reference (see C47: such rules can escape their scope). *)
Fixpoint plain (t : term) : bool :=
  match t with
  | TRule _ | TS _ | TRE _ | TREF _ _ => true
  | TExtRef _ => false
  | TSeq ts => forallb plain ts
  | TOneof ts => forallb plain ts
  | TStack ts => forallb plain ts
  | TDelim t sep _ _ _ => plain t && plain sep
  | TLookAhead t => plain t
  | TQuant t _ _ => plain t
  | TNamed _ t => plain t
  | TScoped t g => plain t && forallb (fun kv => plain (snd kv) && (is_alias (snd kv) || negb (headrule (snd kv)))) g
  | TCut t => plain t
  end.
Definition plain_grammar (g : grammar) : bool := forallb (fun kv => plain (snd kv)) g.

(** Every rule reference below the term is in a place where compilation hooks it up: not
    directly under a cut point.  [refs]: are back references allowed. *)
Fixpoint hooked (refs : bool) (t : term) : bool :=
  match t with
  | TRule _ | TS _ | TRE _ | TExtRef _ => true
  | TREF _ _ => refs
  | TSeq ts => forallb (hooked refs) ts
  | TOneof ts => forallb (hooked refs) ts
  | TStack ts => forallb (hooked refs) ts
  | TDelim t sep _ _ _ => hooked refs t && hooked refs sep
  | TLookAhead t => hooked refs t
  | TQuant t _ _ => hooked refs t
  | TNamed _ t => hooked refs t
  | TScoped t g => hooked refs t && forallb (fun kv => hooked refs (snd kv)) g
  | TCut t => negb (headrule t) && hooked refs t
  end.
(** The same for a whole grammar; a rule is an alias or does not end in a bare rule. *)
Definition hooked_grammar (refs : bool) (g : grammar) : bool :=
  forallb (fun kv => hooked refs (snd kv) && (is_alias (snd kv) || negb (headrule (snd kv)))) g.

(** No stacks, no cut points, no back references: conditions checked term by term. *)
Fixpoint no_stack (t : term) : bool :=
  match t with
  | TRule _ | TS _ | TRE _ | TExtRef _ | TREF _ _ => true
  | TSeq ts => forallb no_stack ts
  | TOneof ts => forallb no_stack ts
  | TStack ts => false
  | TDelim t sep _ _ _ => no_stack t && no_stack sep
  | TLookAhead t => no_stack t
  | TQuant t _ _ => no_stack t
  | TNamed _ t => no_stack t
  | TScoped t g => no_stack t && forallb (fun kv => no_stack (snd kv)) g
  | TCut t => no_stack t
  end.
Definition no_stack_grammar (g : grammar) : bool := forallb (fun kv => no_stack (snd kv)) g.

Fixpoint no_cut (t : term) : bool :=
  match t with
  | TRule _ | TS _ | TRE _ | TExtRef _ | TREF _ _ => true
  | TSeq ts => forallb no_cut ts
  | TOneof ts => forallb no_cut ts
  | TStack ts => forallb no_cut ts
  | TDelim t sep _ _ _ => no_cut t && no_cut sep
  | TLookAhead t => no_cut t
  | TQuant t _ _ => no_cut t
  | TNamed _ t => no_cut t
  | TScoped t g => no_cut t && forallb (fun kv => no_cut (snd kv)) g
  | TCut t => false
  end.
Definition no_cut_grammar (g : grammar) : bool := forallb (fun kv => no_cut (snd kv)) g.

(** Parsing rule [r] of grammar [g] at [s] has outcome [o]. *)
Definition means (E : engine) (g : grammar) (r : string) (s : scanner) (o : outcome) : Prop :=
  peg E [g] [] "" (TRule r) s o.

(** The conditions under which that reading describes the parser: no externals, no stacks
    (see C26 for those), every rule reference hooked up. *)
Definition readable (g : grammar) : Prop := no_stack_grammar g = true /\ plain_grammar g = true.
