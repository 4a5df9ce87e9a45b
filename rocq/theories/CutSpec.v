(** Vocabulary about cut points: the random identifiers drawn, results up to identifiers,
    and evaluation contexts. *)
From Verif Require Import Base Scanner Syntax Engine Compile Parse PegSpec.
Local Open Scope Z_scope.

(** How many random numbers parsing rule [r] draws. *)
Definition draws (c : config) (fuel : nat) (ps : parsers) (r : string) (s : scanner) : nat :=
  match lookup r (p_rules ps) with
  | None => O
  | Some p => snd (parse c fuel [p_rules ps] p empty_scope s 0)
  end.

(** The first [n] numbers of the stream are non-negative (they come from rand.Int31) and
    pairwise distinct. *)
Definition drawn_ok (rnd : nat -> Z) (n : nat) : Prop :=
  (forall i, (i < n)%nat -> 0 <= rnd i) /\
  (forall i j, (i < n)%nat -> (j < n)%nat -> rnd i = rnd j -> i = j).

(** None of them is the identifier 1, which parser.go:728 uses for missing externals. *)
Definition unreserved (rnd : nat -> Z) (n : nat) : Prop := forall i, (i < n)%nat -> rnd i <> 1.

(** Externals that do not look at the cut identifier in the scope, and whose fatal errors do
    not carry one of the drawn identifiers. *)
Definition blind (fn : extfn) : Prop :=
  forall vs c1 c2 s, fn (mkScope vs c1) s = fn (mkScope vs c2) s.
Definition foreign (rnd : nat -> Z) (n : nat) (fn : extfn) : Prop :=
  forall sc s r c, snd (fn sc s) = XErr (EFatal r c) -> forall i, (i < n)%nat -> rnd i <> c.
Definition ext_ok (c : config) (P : extfn -> Prop) : Prop :=
  (forall s fn, lookup s (cf_ext c) = Some fn -> P fn) /\
  (forall e, cf_esc c = Some e -> P (esc_fn e)).

(** Equal results, except that the identifiers in fatal errors may differ. *)
Definition erase_id (e : perr) : perr := match e with EFatal r _ => EFatal r 0 | _ => e end.
Definition same_result (r1 r2 : res) : Prop :=
  match r1, r2 with
  | RErr e1, RErr e2 => erase_id e1 = erase_id e2
  | _, _ => r1 = r2
  end.

(** Evaluating [t] at [s] comes to evaluating [t'] at [s'] (in the grammars and bindings
    given): everything tried before on the way has been decided in favour of going there. *)
Inductive reaches (E : engine)
  : grammars -> bindings -> string -> term -> scanner ->
    grammars -> bindings -> string -> term -> scanner -> Prop :=
| R_here : forall gs vs r t s, reaches E gs vs r t s gs vs r t s
| R_named : forall gs vs r n t s gs' vs' r' t' s', reaches E gs vs n t s gs' vs' r' t' s' ->
    reaches E gs vs r (TNamed n t) s gs' vs' r' t' s'
| R_cut : forall gs vs r t s gs' vs' r' t' s', reaches E gs vs r t s gs' vs' r' t' s' ->
    reaches E gs vs r (TCut t) s gs' vs' r' t' s'
| R_scoped : forall gs vs r t g s gs' vs' r' t' s', reaches E (g :: gs) vs r t s gs' vs' r' t' s' ->
    reaches E gs vs r (TScoped t g) s gs' vs' r' t' s'
| R_rule : forall gs vs r x gs0 t s gs' vs' r' t' s', rule_body gs x gs0 t ->
    reaches E gs0 vs x t s gs' vs' r' t' s' -> reaches E gs vs r (TRule x) s gs' vs' r' t' s'
| R_seq : forall gs vs r ts t rest vs1 s s1 gs' vs' r' t' s',
    elements E gs vs ts s vs1 s1 -> reaches E gs vs1 "" t s1 gs' vs' r' t' s' ->
    reaches E gs vs r (TSeq (ts ++ t :: rest)) s gs' vs' r' t' s'
| R_oneof : forall gs vs r ts t rest s gs' vs' r' t' s',
    Forall (fun u => peg E gs vs "" u s Fail) ts -> reaches E gs vs "" t s gs' vs' r' t' s' ->
    reaches E gs vs r (TOneof (ts ++ t :: rest)) s gs' vs' r' t' s'
| R_quant : forall gs vs r t mn mx n s s1 gs' vs' r' t' s',
    times E gs vs t n s s1 -> room mx n -> reaches E gs vs "" t s1 gs' vs' r' t' s' ->
    reaches E gs vs r (TQuant t mn mx) s gs' vs' r' t' s'
| R_look : forall gs vs r t s gs' vs' r' t' s', reaches E gs vs "" t s gs' vs' r' t' s' ->
    reaches E gs vs r (TLookAhead t) s gs' vs' r' t' s'
| R_delim : forall gs vs r t sep a cs ce s gs' vs' r' t' s',
    reaches E gs vs r (delim_seq t sep cs ce) s gs' vs' r' t' s' ->
    reaches E gs vs r (TDelim t sep a cs ce) s gs' vs' r' t' s'
(** The elements of a sequence match one after the other. *)
with elements (E : engine) : grammars -> bindings -> list term -> scanner -> bindings -> scanner -> Prop :=
| E_nil : forall gs vs s, elements E gs vs [] s vs s
| E_cons : forall gs vs t ts s v s1 vs' s', peg E gs vs "" t s (Succ v s1) ->
    elements E gs (bind vs (label t) v) ts s1 vs' s' -> elements E gs vs (t :: ts) s vs' s'
(** A body matches [n] times in a row. *)
with times (E : engine) : grammars -> bindings -> term -> nat -> scanner -> scanner -> Prop :=
| T_zero : forall gs vs t s, times E gs vs t 0 s s
| T_more : forall gs vs t n s v s1 s', peg E gs vs "" t s (Succ v s1) -> times E gs vs t n s1 s' ->
    times E gs vs t (S n) s s'.
