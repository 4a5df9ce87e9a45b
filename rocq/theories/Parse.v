(** Model of the run half of parser/parser.go with scope.go and error.go. *)
From Verif Require Import Base Scanner Syntax Engine Resolve Compile.
Local Open Scope Z_scope.

(** error.go: the error values a parse can return.  Messages and causes are dropped. *)
Inductive perr :=
| EParse (rule : string)                        (* error.go:9  ParseError *)
| EFatal (rule : string) (cp : Z)               (* error.go:16 FatalError *)
| EStop                                         (* error.go:21 an error implementing StopError *)
| EUnconsumed (residue : scanner) (t : tree)    (* error.go:82 UnconsumedInputError *)
| EOther.                                       (* any other error *)

(** scope.go:78-80 [valid] and [invalidCutpoint]. *)
Definition cp_valid (c : Z) : bool := 0 <=? c.
Definition invalid_cp : Z := -1.

(** error.go:25-31 [isFatal]. *)
Definition is_fatal (e : perr) : bool :=
  match e with EFatal _ _ | EStop => true | _ => false end.

(** error.go:33-41 [isNotMyFatalError]. *)
Definition not_my_fatal (e : perr) (cp : Z) : bool :=
  match e with
  | EFatal _ c => negb (c =? cp)
  | EStop => true
  | _ => false
  end.

(** error.go:43-60 [newParseError]. *)
Definition new_parse_error (rule : string) (cp : Z) : perr :=
  if cp_valid cp then EFatal rule cp else EParse rule.

(** scope.go:18-20 [Scope]: the values bound by sequences and the cut point.  The externals
    and the escape, which never change during a parse, live in [config]. *)
Record scope := mkScope { svals : list (string * tree); scut : Z }.
Definition empty_scope : scope := mkScope [] invalid_cp.

(** scope.go:59-64 [WithVal]. *)
Definition with_val (sc : scope) (ident : string) (v : tree) : scope :=
  if String.eqb ident "" then sc else mkScope (aset ident v (svals sc)) (scut sc).

(** externals.go: an external parser.  Modelled as a pure function; for escapes the two
    extra scope entries of parser.go:143-146 are not passed. *)
Inductive extres := XOk (t : tree) | XErr (e : perr).
Definition extfn := scope -> scanner -> scanner * extres.

(** scope.go:12-16 [escape]. *)
Record escape := mkEscape { esc_open : bytes; esc_close : bytes; esc_fn : extfn }.

Record config := mkConfig {
  cf_eng : engine;
  cf_ext : list (string * extfn);
  cf_esc : option escape;
  cf_rnd : nat -> Z           (* the stream of rand.Int31 results, scope.go:86 *)
}.

(** scope.go:82-90 [ReplaceCutPoint]; [k] counts the random numbers drawn so far.
    Returns (new scope, previous, replacement, new count). *)
Definition replace_cut (c : config) (force : bool) (sc : scope) (k : nat) : scope * Z * Z * nat :=
  if cp_valid (scut sc) || force
  then (mkScope (svals sc) (cf_rnd c k), scut sc, cf_rnd c k, S k)
  else (sc, invalid_cp, invalid_cp, k).

Inductive res :=
| ROk (t : tree)
| RErr (e : perr)
| RPanic
| RFuel.                       (* the model's fuel ran out; no Go counterpart *)

(** Result, input scanner left behind, random numbers drawn. *)
Definition out := (res * scanner * nat)%type.

(** parser.go:51-56 [ruleOrAlt], 60-70 [tag]. *)
Definition rule_or_alt (rule alt : string) : string :=
  if String.eqb rule "" then alt else rule.

(** parser.go:139-165 [parseEscape], followed by the rest of the parser when there is no
    escape here. *)
Definition with_escape (c : config) (sc : scope) (inp : scanner) (k : nat) (cont : unit -> out) : out :=
  match cf_esc c with
  | None => cont tt
  | Some e =>
      match eat_regexp (cf_eng c) (esc_open e) inp 0 with
      | EatPanic => (RPanic, inp, k)
      | EatNo => cont tt
      | EatOk _ _ _ inp1 =>
          let close te inp2 :=
            match eat_regexp (cf_eng c) (esc_close e) inp2 0 with
            | EatPanic => (RPanic, inp2, k)
            | EatNo => (RErr EOther, inp2, k)
            | EatOk _ _ _ inp3 => (ROk te, inp3, k)
            end in
          match esc_fn e sc inp1 with
          | (inp2, XOk te) => close te inp2
          | (_, XErr (EUnconsumed residue te)) => close te residue
          | (inp2, XErr err) => (RErr err, inp2, k)
          end
      end
  end.

(** parser.go:124-129, 779-792: where a patched slot leads.  The environment lists the rule
    tables of the enclosing grammars, innermost first. *)
Definition env := list (list (string * parser)).
Fixpoint resolve_link (e : env) (r : string) : option (parser * env) :=
  match e with
  | [] => None
  | rules :: e' => match lookup r rules with
                   | Some p => Some (p, e)
                   | None => resolve_link e' r
                   end
  end.

(** parser.go:358 the type test for cutPointParser, looking through the model's own wrappers. *)
Fixpoint is_cut0 (p : parser) : bool :=
  match p with
  | PCut _ => true
  | PScoped _ q => is_cut0 q
  | _ => false
  end.
Definition is_cut (e : env) (p : parser) : bool :=
  match p with
  | PLink r => match resolve_link e r with Some (q, _) => is_cut0 q | None => false end
  | _ => is_cut0 p
  end.

Section Loops.
  Variable c : config.
  Variable run : parser -> scope -> scanner -> nat -> out.
  Variable iscut : parser -> bool.

  (** parser.go:342-365, the loop of [seqParser.Parse].  [inp] is [*input], which equals
      [furthest] at the head of the loop. *)
  Fixpoint seq_loop (rule : string) (ids : list string) (ps : list parser)
    (sc : scope) (inp : scanner) (k : nat) (acc : list tree) : out :=
    match ps with
    | [] => (ROk (Node (rule_or_alt rule seqTag) XNone acc), inp, k)
    | p :: ps' =>
        match run p sc inp k with
        | (ROk v, inp', k') =>
            let '(sc1, k1) :=
              if iscut p then let '(s, _, _, k2) := replace_cut c true sc k' in (s, k2) else (sc, k') in
            seq_loop rule (tl ids) ps' (with_val sc1 (hd ""%string ids) v) inp' k1 (acc ++ [v])
        | (RErr e, inp', k') =>
            if is_fatal e then (RErr e, inp', k')
            else (RErr (new_parse_error rule (scut sc)), inp, k')
        | r => r
        end
    end.

  (** parser.go:570-588, the loop of [quantParser.Parse].  At the head of the loop [start]
      equals [*input]; both are [inp]. *)
  Fixpoint quant_loop (fuel : nat) (rule : string) (mn mx : nat) (p : parser) (sc : scope)
    (prevcp mycp : Z) (inp : scanner) (k : nat) (acc : list tree) : out :=
    let finish k' :=
      if Nat.leb mn (length acc) then (ROk (Node (rule_or_alt rule quantTag) XNone acc), inp, k')
      else (RErr (new_parse_error rule prevcp), inp, k') in
    if Nat.eqb mx 0 || Nat.ltb (length acc) mx then
      match fuel with
      | O => (RFuel, inp, k)
      | S f =>
          match run p sc inp k with
          | (ROk v, inp', k') => quant_loop f rule mn mx p sc prevcp mycp inp' k' (acc ++ [v])
          | (RErr e, _, k') => if not_my_fatal e mycp then (RErr e, inp, k') else finish k'
          | (r, inp', k') => (r, inp', k')
          end
      end
    else finish k.

  (** parser.go:617-641, the loop of [oneofParser.Parse]. *)
  Fixpoint oneof_loop (rule : string) (i : nat) (ps : list parser) (sc : scope)
    (prevcp mycp : Z) (inp furthest : scanner) (k : nat) : out :=
    match ps with
    | [] => (RErr (new_parse_error rule prevcp), furthest, k)
    | p :: ps' =>
        match run p sc inp k with
        | (ROk v, inp', k') => (ROk (Node (rule_or_alt rule oneofTag) (XChoice i) [v]), inp', k')
        | (RErr e, start', k') =>
            if not_my_fatal e mycp then (RErr e, inp, k')
            else oneof_loop rule (S i) ps' sc prevcp mycp inp
                   (if offset furthest <? offset start' then start' else furthest) k'
        | (r, inp', k') => (r, inp', k')
        end
    end.
End Loops.

(** parsernodes.go:47-53 [Node.Get] one step: type assertion and index. *)
Definition get1 (t : tree) (i : nat) : option tree :=
  match t with Node _ _ cs => nth_error cs i | _ => None end.
Definition obind {A B} (m : option A) (f : A -> option B) : option B :=
  match m with Some a => f a | None => None end.
(** parsernodes.go:55-57 [GetNode]: the children of the node at a path. *)
Definition node_children (t : tree) : option (list tree) :=
  match t with Node _ _ cs => Some cs | _ => None end.

(** parser.go:423-427: the (sep, term) pairs. *)
Fixpoint delim_pairs (cs : list tree) : option (list tree) :=
  match cs with
  | [] => Some []
  | p :: cs' => obind (get1 p 0) (fun s => obind (get1 p 1) (fun t =>
                obind (delim_pairs cs') (fun r => Some (s :: t :: r))))
  end.

(** parser.go:404-431: the flat result list. *)
Definition delim_flat (cs ce : bool) (o : tree) : option (list tree) :=
  let body := if cs then 1%nat else 0%nat in
  obind (if cs then obind (obind (get1 o 0) node_children) (fun x =>
                    Some (match x with [] => [] | s :: _ => [Empty; s] end))
         else Some []) (fun lead =>
  obind (get1 o body) (fun core =>
  obind (get1 core 0) (fun first =>
  obind (obind (get1 core 1) node_children) (fun more =>
  obind (delim_pairs more) (fun pairs =>
  obind (if ce then obind (obind (get1 o (body + 1)) node_children) (fun x =>
                    Some (match x with [] => [] | s :: _ => [s; Empty] end))
         else Some []) (fun trail =>
  Some (lead ++ first :: pairs ++ trail))))))).

(** parser.go:435-441: fold the tail pairs to the left. *)
Fixpoint fold_l2r (tag : string) (v : tree) (rest : list tree) : option tree :=
  match rest with
  | [] => Some v
  | [_] => None
  | s :: t :: rest' => fold_l2r tag (Node tag (XAssoc LeftToRight) [v; s; t]) rest'
  end.

(** parser.go:442-449: fold to the right; [rest] is the reversed prefix of the list. *)
Fixpoint fold_r2l (tag : string) (v : tree) (rest : list tree) : option tree :=
  match rest with
  | [] => Some v
  | [_] => None
  | s :: t :: rest' => fold_r2l tag (Node tag (XAssoc RightToLeft) [t; s; v]) rest'
  end.

(** parser.go:433-453. *)
Definition delim_fold (tag : string) (a : assoc) (l : list tree) : option tree :=
  match a, l with
  | LeftToRight, v :: (_ :: _) as rest => fold_l2r tag v (tl l)
  | RightToLeft, _ :: _ :: _ =>
      match rev l with v :: rest => fold_r2l tag v rest | [] => None end
  | _, _ => Some (Node tag (XAssoc NonAssociative) l)
  end.

Definition delim_node (rule : string) (a : assoc) (cs ce : bool) (o : tree) : option tree :=
  obind (delim_flat cs ce o) (delim_fold (rule_or_alt rule delimTag) a).

(** parser.go:670-683 [termFromRefVal]; [Empty] gives a nil term, whose use panics. *)
Fixpoint term_from_ref_val (t : tree) : option term :=
  match t with
  | Node _ _ cs =>
      obind ((fix go (l : list tree) : option (list term) :=
                match l with
                | [] => Some []
                | x :: l' => obind (term_from_ref_val x) (fun y => obind (go l') (fun ys => Some (y :: ys)))
                end) cs) (fun ts => Some (TSeq ts))
  | Leaf s => obind (sstring s) (fun b => Some (TS b))
  | Empty => None
  end.

(** parser.go:312-335 [nodesEqual]. *)
Fixpoint nodes_equal (a b : tree) {struct a} : bool :=
  match a, b with
  | Node _ _ ca, Node _ _ cb =>
      if Nat.eqb (length ca) (length cb) then
        (fix go (l m : list tree) : bool :=
           match l, m with
           | x :: l', y :: m' => nodes_equal x y && go l' m'
           | _, _ => true
           end) ca cb
      else true
  | Leaf x, Leaf y =>
      match sstring x, sstring y with Some p, Some q => beqb p q | _, _ => false end
  | _, _ => false
  end.

(** parser.go: the [Parse] methods. *)
Fixpoint parse (c : config) (fuel : nat) (e : env) (p : parser) (sc : scope) (inp : scanner) (k : nat)
  {struct fuel} : out :=
  match fuel with
  | O => (RFuel, inp, k)
  | S f =>
      match p with
      | PRule _ _ => (RPanic, inp, k)                               (* 173-175 *)
      | PLink r =>
          match resolve_link e r with
          | Some (q, e') => parse c f e' q sc inp k
          | None => (RPanic, inp, k)                                (* nil Parser *)
          end
      | PScoped rules q => parse c f (rules :: e) q sc inp k
      | PCut q => parse c f e q sc inp k                            (* 801-803 *)
      | PS rule _ re | PRE rule _ re =>                             (* 234-246, 264-276 *)
          with_escape c sc inp k (fun _ =>
            match eat_token (cf_eng c) re inp with
            | TokPanic => (RPanic, inp, k)
            | TokNo => (RErr (new_parse_error rule (scut sc)), inp, k)
            | TokOk leaf rest => (ROk (Leaf leaf), rest, k)
            end)
      | PSeq rule ids ps =>                                         (* 337-366 *)
          with_escape c sc inp k (fun _ =>
            seq_loop c (parse c f e) (is_cut e) rule ids ps sc inp k [])
      | PDelim rule a cs ce child =>                                (* 391-454 *)
          with_escape c sc inp k (fun _ =>
            match parse c f e child sc inp k with
            | (ROk o, inp', k') =>
                match delim_node rule a cs ce o with
                | Some t => (ROk t, inp', k')
                | None => (RPanic, inp', k')
                end
            | r => r
            end)
      | PLook rule q =>                                             (* 522-534 *)
          with_escape c sc inp k (fun _ =>
            match parse c f e q sc inp k with
            | (ROk v, _, k') => (ROk (Node (rule_or_alt rule lookaheadTag) XNone [v]), inp, k')
            | (r, _, k') => (r, inp, k')
            end)
      | PQuant rule mn mx q =>                                      (* 558-589 *)
          with_escape c sc inp k (fun _ =>
            let '(sc', prevcp, mycp, k') := replace_cut c false sc k in
            quant_loop (parse c f e) f rule mn mx q sc' prevcp mycp inp k' [])
      | POneof rule ps =>                                           (* 612-642 *)
          with_escape c sc inp k (fun _ =>
            let '(sc', prevcp, mycp, k') := replace_cut c false sc k in
            oneof_loop (parse c f e) rule 0 ps sc' prevcp mycp inp inp k')
      | PREF ident default =>                                       (* 685-715 *)
          with_escape c sc inp k (fun _ =>
            let go (t : term) (check : tree -> bool) : out :=
              match term_parser (cf_eng c) t None ident with
              | COk q =>
                  match parse c f [] q sc inp k with
                  | (ROk v, inp', k') => if check v then (ROk v, inp', k') else (RErr (EParse ident), inp', k')
                  | r => r
                  end
              | _ => (RPanic, inp, k)
              end in
            match lookup ident (svals sc) with
            | Some expected =>
                match term_from_ref_val expected with
                | None => (RPanic, inp, k)
                | Some t => go t (fun v => nodes_equal v expected)
                end
            | None =>
                match default with
                | Some s => go (TS s) (fun _ => true)
                | None => (RErr (EParse ident), inp, k)
                end
            end)
      | PExt s =>                                                   (* 722-734 *)
          with_escape c sc inp k (fun _ =>
            match lookup s (cf_ext c) with
            | None => (RErr (new_parse_error s 1), inp, k)
            | Some fn => match fn sc inp with
                         | (inp', XOk t) => (ROk t, inp', k)
                         | (inp', XErr err) => (RErr err, inp', k)
                         end
            end)
      end
  end.

(** terms.go:51-63 [ParseWithExternals]: the outcome and the scanner the caller is left with.
    The random counter starts at 0. *)
Definition parse_rule (c : config) (fuel : nat) (ps : parsers) (rule : string) (inp : scanner)
  : res * scanner :=
  match lookup rule (p_rules ps) with
  | None => (RPanic, inp)
  | Some p =>
      match parse c fuel [p_rules ps] p empty_scope inp 0 with
      | (ROk t, inp', _) =>
          match sstring inp' with
          | Some [] => (ROk t, inp')
          | Some _ => (RErr (EUnconsumed inp' t), inp')
          | None => (RPanic, inp')
          end
      | (r, inp', _) => (r, inp')
      end
  end.
