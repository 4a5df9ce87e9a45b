(** Model of the compile half of parser/parser.go: [Grammar.Compile] and the [Parser]
    methods of all terms.

    In Go a reference to a rule compiles to a [ruleParser] placeholder; slots that may hold
    one are registered and, once all rules are compiled, overwritten with the rule's parser.
    Here a registered placeholder becomes [PLink r], looked up in the environment of the
    enclosing (scoped) grammars when it runs; a placeholder that was never registered stays
    [PRule] and panics when run (parser.go:173-175). *)
From Verif Require Import Base Scanner Syntax Engine Resolve.

Inductive parser :=
| PRule (rule t : string)                                     (* parser.go:168 ruleParser, not hooked up *)
| PLink (t : string)                                          (* a slot overwritten with rule t's parser *)
| PS (rule : string) (t re : bytes)                           (* parser.go:228 sParser *)
| PRE (rule : string) (t re : bytes)                          (* parser.go:258 reParser *)
| PSeq (rule : string) (ids : list string) (ps : list parser) (* parser.go:290 seqParser; ids = identFromTerm *)
| PDelim (rule : string) (a : assoc) (cs ce : bool) (child : parser)  (* parser.go:380 delimParser *)
| PLook (rule : string) (p : parser)                          (* parser.go:515 lookaheadParser *)
| PQuant (rule : string) (mn mx : nat) (p : parser)           (* parser.go:551 quantParser *)
| POneof (rule : string) (ps : list parser)                   (* parser.go:605 oneofParser *)
| PREF (ident : string) (default : option bytes)              (* parser.go:685 *REF *)
| PExt (s : string)                                           (* parser.go:722 ExtRef *)
| PCut (p : parser)                                           (* parser.go:796 cutPointParser *)
| PScoped (rules : list (string * parser)) (p : parser).      (* p, whose links see [rules] first *)

Section ParserInd.
  Variable P : parser -> Prop.
  Hypothesis HRule : forall r t, P (PRule r t).
  Hypothesis HLink : forall t, P (PLink t).
  Hypothesis HS : forall r t re, P (PS r t re).
  Hypothesis HRE : forall r t re, P (PRE r t re).
  Hypothesis HSeq : forall r ids ps, Forall P ps -> P (PSeq r ids ps).
  Hypothesis HDelim : forall r a cs ce p, P p -> P (PDelim r a cs ce p).
  Hypothesis HLook : forall r p, P p -> P (PLook r p).
  Hypothesis HQuant : forall r mn mx p, P p -> P (PQuant r mn mx p).
  Hypothesis HOneof : forall r ps, Forall P ps -> P (POneof r ps).
  Hypothesis HREF : forall i d, P (PREF i d).
  Hypothesis HExt : forall s, P (PExt s).
  Hypothesis HCut : forall p, P p -> P (PCut p).
  Hypothesis HScoped : forall rs p, Forall (fun kv => P (snd kv)) rs -> P p -> P (PScoped rs p).
  Fixpoint parser_ind' (p : parser) : P p :=
    let list_ind := fix go (ts : list parser) : Forall P ts :=
      match ts with
      | [] => Forall_nil P
      | x :: ts' => Forall_cons x (parser_ind' x) (go ts')
      end in
    let rules_ind := fix go (g : list (string * parser)) : Forall (fun kv => P (snd kv)) g :=
      match g with
      | [] => Forall_nil _
      | kv :: g' => Forall_cons kv (parser_ind' (snd kv)) (go g')
      end in
    match p with
    | PRule r t => HRule r t
    | PLink t => HLink t
    | PS r t re => HS r t re
    | PRE r t re => HRE r t re
    | PSeq r ids ps => HSeq r ids ps (list_ind ps)
    | PDelim r a cs ce p => HDelim r a cs ce p (parser_ind' p)
    | PLook r p => HLook r p (parser_ind' p)
    | PQuant r mn mx p => HQuant r mn mx p (parser_ind' p)
    | POneof r ps => HOneof r ps (list_ind ps)
    | PREF i d => HREF i d
    | PExt s => HExt s
    | PCut p => HCut p (parser_ind' p)
    | PScoped rs p => HScoped rs p (rules_ind rs) (parser_ind' p)
    end.
End ParserInd.

(** parser.go:30-34 [registerRule] on a slot, together with the later patching
    (parser.go:124-129, 779-792). *)
Definition reg (p : parser) : parser :=
  match p with PRule _ t => PLink t | _ => p end.

(** parser.go:297-310 [identFromTerm]. *)
Fixpoint ident_from_term (t : term) : string :=
  match t with
  | TNamed n t' => if String.eqb n "" then ident_from_term t' else n
  | TRule r => r
  | TQuant t' _ _ => ident_from_term t'
  | _ => ""
  end.

(** [strings.Replace(s, "()", by, 1)]. *)
Fixpoint replace_hole (s by_ : bytes) : bytes :=
  match s with
  | [] => []
  | c :: s' =>
      match s' with
      | d :: s'' => if Ascii.eqb c "("%char && Ascii.eqb d ")"%char then by_ ++ s''
                    else c :: replace_hole s' by_
      | [] => s
      end
  end.

(** parser.go:209-220: is the text exempt from wrapping. *)
Definition exempt (re : bytes) (t : term) : bool :=
  match t with
  | TS s => beqb s re
  | TRE s => beqb s re
  | _ => false
  end.

(** parser.go:223: [string(wrap.(RE))] and the replacement. *)
Definition wrap_with (wrap : term) (pre : bytes) : cres bytes :=
  match wrap with
  | TRE w => COk (replace_hole w (bs "(?:" ++ pre ++ bs ")"))
  | _ => CPanic
  end.

(** parser.go:205-226 [applyWrapRE]; [wrap] is [c.grammar[WrapRE]]. *)
Definition apply_wrap (wrap : option term) (re pre : bytes) : cres bytes :=
  match wrap with
  | None => COk pre
  | Some (TOneof ts) =>
      match rev ts with
      | [] => CPanic                                  (* oneof[:len(oneof)-1] *)
      | last :: others => if existsb (exempt re) (rev others) then COk pre else wrap_with last pre
      end
  | Some w => wrap_with w pre
  end.

(** [regexp.MustCompile("(?m)\A" + re)] (parser.go:254, 284). *)
Definition must_compile (E : engine) (re : bytes) : cres bytes :=
  if re_valid E (anchor ++ re) then COk (anchor ++ re) else CPanic.

(** parser.go:112-120, 762-770: follow rule aliases.  [fs] holds for each rule its term and
    its compile function; an undefined alias is a nil term, whose [Parser] call panics; a
    cycle of aliases loops for ever. *)
Fixpoint chase {B} (fuel : nat) (fs : list (string * (term * B))) (t : term) (f : B) : cres B :=
  match t with
  | TRule r =>
      match fuel with
      | O => CDiv
      | S n => match lookup r fs with
               | None => CPanic
               | Some (t', f') => chase n fs t' f'
               end
      end
  | _ => COk f
  end.

Definition compile_rules (fs : list (string * (term * (string -> cres parser))))
  : cres (list (string * parser)) :=
  ctraverse (fun kv : string * (term * (string -> cres parser)) =>
    let '(r, (t, f)) := kv in
    cbind (chase (S (length fs)) fs t f) (fun f' =>
    cbind (f' r) (fun p => COk (r, p)))) fs.

(** parser.go:743-794, the tail of [ScopedGrammar.Parser]: hook up the result. *)
Definition scoped_result (rules : list (string * parser)) (p : parser) : parser :=
  match p with
  | PRule n x =>
      match lookup x rules with
      | None => PRule n x                     (* belongs to the outer scope *)
      | Some (PRule n' y) => PRule n' y       (* the local rule is itself an unhooked placeholder *)
      | Some q => PScoped rules q
      end
  | _ => PScoped rules p
  end.

(** The [Parser] methods.  [wrap] is [c.grammar[WrapRE]]; stacks of nested grammars have
    been resolved beforehand ([prep] below). *)
Fixpoint term_parser (E : engine) (t : term) (wrap : option term) (rule : string) {struct t}
  : cres parser :=
  match t with
  | TRule r => COk (PRule rule r)                                        (* 178-183 *)
  | TS s =>                                                              (* 249-256 *)
      cbind (apply_wrap wrap s (group (quote_meta s))) (fun re =>
      cbind (must_compile E re) (fun re' => COk (PS rule s re')))
  | TRE s =>                                                             (* 279-286 *)
      cbind (apply_wrap wrap s (group s)) (fun re =>
      cbind (must_compile E re) (fun re' => COk (PRE rule s re')))
  | TSeq ts =>                                                           (* 369-376 *)
      cbind (ctraverse (fun x => cbind (term_parser E x wrap "") (fun p => COk (reg p))) ts)
        (fun ps => COk (PSeq rule (map ident_from_term ts) ps))
  | TDelim t sep a cs ce =>                                              (* 457-480 *)
      cbind (term_parser E t wrap "") (fun pt0 =>
      cbind (term_parser E sep wrap "") (fun psep0 =>
        let pt := reg pt0 in
        let psep := reg psep0 in
        let opt := PQuant "" 0 1 psep in
        let more := PQuant "" 0 0 (PSeq "" [ident_from_term sep; ident_from_term t] [psep; pt]) in
        let core := PSeq "" [ident_from_term t; ""%string] [pt; more] in
        let ids := (if cs then [ident_from_term sep] else []) ++ [""%string]
                   ++ (if ce then [ident_from_term sep] else []) in
        let ps := (if cs then [opt] else []) ++ [core] ++ (if ce then [opt] else []) in
        COk (PDelim rule a cs ce (PSeq rule ids ps))))
  | TLookAhead t =>                                                      (* 538-547 *)
      cbind (term_parser E t wrap "") (fun p => COk (PLook rule (reg p)))
  | TQuant t mn mx =>                                                    (* 592-601 *)
      cbind (term_parser E t wrap "") (fun p => COk (PQuant rule mn mx (reg p)))
  | TOneof ts =>                                                         (* 645-652 *)
      cbind (ctraverse (fun x => cbind (term_parser E x wrap "") (fun p => COk (reg p))) ts)
        (fun ps => COk (POneof rule ps))
  | TStack _ => CPanic                                                   (* 656-658 *)
  | TNamed n t => term_parser E t wrap n                                 (* 663-665 *)
  | TREF i d => COk (PREF i d)                                           (* 717-719 *)
  | TExtRef s => COk (PExt s)                                            (* 736-738 *)
  | TScoped t g =>                                                       (* 743-794 *)
      let wrap' := match lookup WrapRE g with Some w => Some w | None => wrap end in
      cbind (compile_rules (map (fun kv => (fst kv, (snd kv, term_parser E (snd kv) wrap'))) g))
        (fun rules =>
      cbind (term_parser E t wrap' rule) (fun p => COk (scoped_result rules p)))
  | TCut t =>                                                            (* 805-807 *)
      cbind (term_parser E t wrap rule) (fun p => COk (PCut p))
  end.

(** parser.go:744-750 done ahead for every nested grammar: resolve its stacks.  (A resolved
    layer cannot contain another scoped grammar: that panics in [term_resolve].) *)
Fixpoint prep (t : term) : cres term :=
  match t with
  | TRule _ | TS _ | TRE _ | TREF _ _ | TExtRef _ => COk t
  | TSeq ts => cbind (ctraverse prep ts) (fun ts' => COk (TSeq ts'))
  | TOneof ts => cbind (ctraverse prep ts) (fun ts' => COk (TOneof ts'))
  | TStack ts => COk t
  | TDelim t sep a cs ce =>
      cbind (prep t) (fun t' => cbind (prep sep) (fun sep' => COk (TDelim t' sep' a cs ce)))
  | TLookAhead t => cbind (prep t) (fun t' => COk (TLookAhead t'))
  | TQuant t mn mx => cbind (prep t) (fun t' => COk (TQuant t' mn mx))
  | TNamed n t => cbind (prep t) (fun t' => COk (TNamed n t'))
  | TScoped t g =>
      cbind (prep t) (fun t' =>
      cbind (ctraverse (fun kv => cbind (prep (snd kv)) (fun u => COk (fst kv, u))) g) (fun g1 =>
      cbind (resolve_stacks g1) (fun g2 => COk (TScoped t' g2))))
  | TCut t => cbind (prep t) (fun t' => COk (TCut t'))
  end.

(** terms.go:27-31 [Parsers] (without the attached node). *)
Record parsers := mkParsers { p_rules : list (string * parser); p_grammar : grammar }.

(** Compile the rules of a grammar whose stacks are resolved. *)
Definition compile_resolved (E : engine) (g : grammar) : cres (list (string * parser)) :=
  cbind (ctraverse (fun kv => cbind (prep (snd kv)) (fun u => COk (fst kv, u))) g) (fun g2 =>
  compile_rules (map (fun kv => (fst kv, (snd kv, term_parser E (snd kv) (lookup WrapRE g2)))) g2)).

(** parser.go:98-136 [Grammar.Compile].  The grammar kept is the one after stack resolution;
    the [.wrapRE] entries that [ScopedGrammar.Parser] writes into nested maps
    (parser.go:751-755) are not reproduced in it. *)
Definition compile (E : engine) (g : grammar) : cres parsers :=
  cbind (resolve_stacks g) (fun g1 =>
  cbind (compile_resolved E g1) (fun rules => COk (mkParsers rules g1))).
