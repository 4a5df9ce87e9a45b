(** Model of the errors of parser/error.go with what their [Error] methods print.  Parse.v has the errors without their causes;
    here a second run finds the causes and uses Parse.v for the results of its parts.

    A cause is a function that [Error] calls later.  What it returns may have changed since: [input] points to a scanner that the
    callers go on to change, and [out] of [quantParser.Parse] is its result variable. *)
From Verif Require Import Base Scanner Syntax Engine Resolve Compile Parse Gotree.
Local Open Scope list_scope.

(** error.go:9-19 [ParseError], also inside [FatalError]; error.go:82-85 [UnconsumedInputError]; all other errors: those
    of externals and of escapes. *)
Inductive fault :=
| FParse (rule : string) (msg : bytes) (causes : list cause)
| FUnconsumed (residue : scanner)
| FOther
with cause :=
| CExpect (what : bytes)                                  (* parser.go:240, 270 *)
| CNote (text : bytes)                                    (* parser.go:699, 700 *)
| CActual (failed_at : scanner) (input : option scanner)  (* parser.go:241, 271; [failed_at] is what [*input] was,
                                                             which Go does not keep; [None]: the caller's variable *)
| CCalls                                                  (* parser.go:242 and others: the stack of calls *)
| CErr (f : fault)                                        (* parser.go:354, 625 *)
| CSelf.                                                  (* parser.go:588: [out], by now the error itself *)

(** A frame ends whose variable the errors of its part point to: its value is [s] from now on. *)
Fixpoint settle (s : scanner) (x : fault) : fault :=
  match x with
  | FParse rule msg causes => FParse rule msg (map (settle_cause s) causes)
  | _ => x
  end
with settle_cause (s : scanner) (y : cause) : cause :=
  match y with
  | CActual a None => CActual a (Some s)
  | CErr f => CErr (settle s f)
  | _ => y
  end.

(** parser.go:139-165 [parseEscape], which returns before the rest of the parser if there is an escape here. *)
Definition escape_fault (c : config) (sc : scope) (inp : scanner) (k : nat) (cont : unit -> option fault) : option fault :=
  match cf_esc c with
  | None => cont tt
  | Some e =>
      match eat_regexp (cf_eng c) (esc_open e) inp 0 with
      | EatNo => cont tt
      | _ => match with_escape c sc inp k (fun _ => (RPanic, inp, k)) with (RErr _, _, _) => Some FOther | _ => None end
      end
  end.

Section Loops.
  Variable c : config.
  Variable run : parser -> scope -> scanner -> nat -> out.
  Variable why : parser -> scope -> scanner -> nat -> option fault.
  Variable iscut : parser -> bool.

  (** parser.go:345-363, the loop of [seqParser.Parse]. *)
  Fixpoint seq_fault (rule : string) (ids : list string) (ps : list parser) (sc : scope) (inp : scanner) (k : nat) : option fault :=
    match ps with
    | [] => None
    | p :: ps' =>
        match run p sc inp k with
        | (ROk v, inp', k') =>
            let '(sc1, k1) :=
              if iscut p then let '(s, _, _, k2) := replace_cut c true sc k' in (s, k2) else (sc, k') in
            seq_fault rule (tl ids) ps' (with_val sc1 (hd ""%string ids) v) inp' k1
        | (RErr e, _, _) =>
            if is_fatal e then why p sc inp k
            else obind (why p sc inp k) (fun x => Some (FParse rule (bs "could not complete sequence") [CErr x; CCalls]))
        | _ => None
        end
    end.

  (** parser.go:570-588, the loop of [quantParser.Parse]; [n] items have been read. *)
  Definition quant_message (mn mx n : nat) : bytes :=
    bs "quant failed, expected: (" ++ bs (dec mn) ++ bs ", " ++ bs (dec mx) ++ bs "), have " ++ bs (dec n) ++ bs " value(s)".
  Fixpoint quant_fault (fuel : nat) (rule : string) (mn mx : nat) (p : parser) (sc : scope) (mycp : Z) (inp : scanner) (k n : nat)
    : option fault :=
    let finish := if Nat.leb mn n then None else Some (FParse rule (quant_message mn mx n) [CSelf; CCalls]) in
    if Nat.eqb mx 0 || Nat.ltb n mx then
      match fuel with
      | O => None
      | S f =>
          match run p sc inp k with
          | (ROk v, inp', k') => quant_fault f rule mn mx p sc mycp inp' k' (S n)
          | (RErr e, start', _) => if not_my_fatal e mycp then obind (why p sc inp k) (fun x => Some (settle start' x)) else finish
          | _ => None
          end
      end
    else finish.

  (** parser.go:617-641, the loop of [oneofParser.Parse]. *)
  Fixpoint oneof_fault (rule : string) (ps : list parser) (sc : scope) (mycp : Z) (inp : scanner) (k : nat) (errors : list cause)
    : option fault :=
    match ps with
    | [] => Some (FParse rule (bs "None of the available options could be satisfied") (errors ++ [CCalls]))
    | p :: ps' =>
        match run p sc inp k with
        | (RErr e, start', k') =>
            obind (why p sc inp k) (fun x =>
            if not_my_fatal e mycp then Some (settle start' x)
            else oneof_fault rule ps' sc mycp inp k' (errors ++ [CErr (settle start' x)]))
        | _ => None
        end
    end.
End Loops.

Section Faults.
  (** What fmt makes of a text for "%q" and of a tree for "%s". *)
  Variable quote : bytes -> bytes.
  Variable show : tree -> bytes.
  Variable c : config.

  (** parser.go: the errors of the [Parse] methods; [None] where there is none. *)
  Fixpoint fault_of (fuel : nat) (e : env) (p : parser) (sc : scope) (inp : scanner) (k : nat) {struct fuel} : option fault :=
    match fuel with
    | O => None
    | S f =>
        match p with
        | PRule _ _ => None
        | PLink r => match resolve_link e r with Some (q, e') => fault_of f e' q sc inp k | None => None end
        | PScoped rules q => fault_of f (rules :: e) q sc inp k
        | PCut q => fault_of f e q sc inp k
        | PS rule x re =>                                                     (* 239-243 *)
            escape_fault c sc inp k (fun _ =>
              match eat_token (cf_eng c) re inp with
              | TokNo => Some (FParse rule [] [CExpect (quote x); CActual inp None; CCalls])
              | _ => None
              end)
        | PRE rule x re =>                                                    (* 269-273 *)
            escape_fault c sc inp k (fun _ =>
              match eat_token (cf_eng c) re inp with
              | TokNo => Some (FParse rule [] [CExpect re; CActual inp None; CCalls])
              | _ => None
              end)
        | PSeq rule ids ps => escape_fault c sc inp k (fun _ => seq_fault c (parse c f e) (fault_of f e) (is_cut e) rule ids ps sc inp k)
        | PDelim rule a cs ce child => escape_fault c sc inp k (fun _ => fault_of f e child sc inp k)     (* 400-402 *)
        | PLook rule q =>                                                     (* 529-532: [start] is its own *)
            escape_fault c sc inp k (fun _ =>
              match parse c f e q sc inp k with
              | (RErr _, start', _) => obind (fault_of f e q sc inp k) (fun x => Some (settle start' x))
              | _ => None
              end)
        | PQuant rule mn mx q =>
            escape_fault c sc inp k (fun _ =>
              let '(sc', _, mycp, k') := replace_cut c false sc k in
              quant_fault (parse c f e) (fault_of f e) f rule mn mx q sc' mycp inp k' 0)
        | POneof rule ps =>
            escape_fault c sc inp k (fun _ =>
              let '(sc', _, mycp, k') := replace_cut c false sc k in
              oneof_fault (parse c f e) (fault_of f e) rule ps sc' mycp inp k' [])
        | PREF ident default =>                                               (* 685-715 *)
            escape_fault c sc inp k (fun _ =>
              let go (t : term) (check : tree -> option fault) : option fault :=
                match term_parser (cf_eng c) t None ident with
                | COk q => match parse c f [] q sc inp k with
                           | (ROk v, _, _) => check v
                           | (RErr _, _, _) => fault_of f [] q sc inp k
                           | _ => None
                           end
                | _ => None
                end in
              match lookup ident (svals sc) with
              | Some expected =>
                  match term_from_ref_val expected with
                  | None => None
                  | Some t => go t (fun v => if nodes_equal v expected then None else
                      Some (FParse ident (bs "Backref not matched")
                        [CNote (bs "expected: " ++ show expected); CNote (bs "actual: " ++ show v); CCalls]))
                  end
              | None =>
                  match default with
                  | Some s => go (TS s) (fun _ => None)
                  | None => Some (FParse ident (bs "Backref not found") [CCalls])
                  end
              end)
        | PExt s =>                                                           (* 726-733 *)
            escape_fault c sc inp k (fun _ =>
              match lookup s (cf_ext c) with
              | None => Some (FParse s (bs "External handler not found") [CCalls])
              | Some fn => match fn sc inp with (_, XErr _) => Some FOther | _ => None end
              end)
        end
    end.

  (** terms.go:51-63 [ParseWithExternals]: the error returned, with the scanner the caller is left with. *)
  Definition rule_fault (fuel : nat) (ps : parsers) (rule : string) (inp : scanner) : option fault :=
    match lookup rule (p_rules ps) with
    | None => None
    | Some p =>
        match parse c fuel [p_rules ps] p empty_scope inp 0 with
        | (ROk t, inp', _) => match sstring inp' with Some (_ :: _) => Some (FUnconsumed inp') | _ => None end
        | (RErr _, inp', _) => obind (fault_of fuel [p_rules ps] p empty_scope inp 0) (fun x => Some (settle inp' x))
        | _ => None
        end
    end.
End Faults.

Section Texts.
  (** gotree.go: how slices grow; what [Context] writes for a scanner and for a new scanner of a text;
      [strings.TrimSpace]; and what the stack of calls and the errors of others print, by their place. *)
  Variable grow : nat -> nat.
  Variable about : scanner -> bytes.
  Variable about_text : bytes -> bytes.
  Variable trim : bytes -> bytes.
  Variable opaque : list nat -> bytes.

  (** parser.go:187-194 [getErrorStrings]. *)
  Definition error_string (s : scanner) : cres bytes :=
    match sstring s with
    | None => CPanic
    | Some x => let text := trim x in COk (about_text (if Nat.ltb 40 (length text) then firstn 40 text ++ bs "  ..." else text))
    end.

  (** error.go:71-78, the loop over the causes, given what they print. *)
  Fixpoint cause_texts (text : nat -> cause -> cres bytes) (i : nat) (causes : list cause) : cres (list bytes) :=
    match causes with
    | [] => COk []
    | y :: causes' => cbind (text i y) (fun x => cbind (cause_texts text (S i) causes') (fun xs => COk (x :: xs)))
    end.

  (** error.go:62-80 [ParseError.Error] with [walkErrors]: since no error is a [*ParseError], each cause becomes the text of one item.
      error.go:93-95 [UnconsumedInputError.Error]. *)
  Fixpoint error_text (fuel : nat) (place : list nat) (x : fault) {struct fuel} : cres bytes :=
    match fuel with
    | O => CDiv
    | S n =>
        match x with
        | FOther => COk (opaque place)
        | FUnconsumed s => COk (bs "unconsumed input" ++ nl :: bs " " ++ about s)
        | FParse rule msg causes =>
            cbind (cause_texts (fun i y =>
              match y with
              | CExpect w => COk (bs "expect: " ++ about_text w)
              | CNote w => COk w
              | CActual _ None => CPanic
              | CActual _ (Some s) => cbind (error_string s) (fun t => COk (bs "actual: " ++ t))
              | CCalls => COk (opaque (i :: place))
              | CErr f => error_text n (i :: place) f
              | CSelf => error_text n (i :: place) x
              end) 0 causes) (fun items =>
            COk (nl :: print grow (add_tree (gnew (bs "parse failed"))
              (fold_left add_text items (gnew (bs "rule(" ++ bs rule ++ bs ") - " ++ msg))))))
        end
    end.
End Texts.
