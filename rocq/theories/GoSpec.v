(** A reader for the part of Go that grammars are written in: constant strings, numbers, calls and composite literals of the
    parser package.  What it does not know counts as an error. *)
From Verif Require Import Base Scanner Syntax.

(** * Tokens *)

Inductive token := Word (x : bytes) | Number (n : nat) | Text (s : bytes) | Sign (c : ascii).

Definition between (lo c hi : ascii) : bool := (Nat.leb (nat_of_ascii lo) (nat_of_ascii c) && Nat.leb (nat_of_ascii c) (nat_of_ascii hi))%bool.
Definition letter (c : ascii) : bool := (between "a" c "z" || between "A" c "Z" || Ascii.eqb c "_")%bool.
Definition digit (c : ascii) : bool := between "0" c "9".
Definition sign (c : ascii) : bool := existsb (Ascii.eqb c) ["{"; "}"; "("; ")"; ","; ":"; "."; "+"]%char.
Definition cr : ascii := "013".
Definition tab_ : ascii := "009".

(** Where the reader is: between tokens (the flag tells whether a line may end here), in a word, a number or a string (with what
    was read of it, backwards). *)
Inductive place := Gap (ends : bool) | InWord (x : bytes) | InNumber (d : bytes) | InRaw (s : bytes) | InQuotes (s : bytes).

Definition number (d : bytes) : option nat :=
  match d with
  | [c] => Some (nat_of_ascii c - 48)
  | c :: _ => if Ascii.eqb c "0" then None else Some (fold_left (fun n c => 10 * n + (nat_of_ascii c - 48)) d 0)
  | [] => None
  end.

(** One more byte between tokens: the tokens it adds, and where it leads to.  Go ends a statement at the end of a line whose last
    token is a word, a number, a string or a closing bracket; in an expression this is an error. *)
Definition in_gap (ends : bool) (c : ascii) : option (list token * place) :=
  if letter c then Some ([], InWord [c])
  else if digit c then Some ([], InNumber [c])
  else if Ascii.eqb c "`" then Some ([], InRaw [])
  else if Ascii.eqb c """" then Some ([], InQuotes [])
  else if sign c then Some ([Sign c], Gap (Ascii.eqb c ")" || Ascii.eqb c "}"))
  else if (Ascii.eqb c " " || Ascii.eqb c tab_ || Ascii.eqb c cr)%bool then Some ([], Gap ends)
  else if Ascii.eqb c nl then if ends then None else Some ([], Gap false)
  else None.
Definition after (t : token) (r : option (list token * place)) : option (list token * place) :=
  match r with Some (ts, p) => Some (t :: ts, p) | None => None end.
(** In raw strings carriage returns are dropped.  Strings in quotes with escapes are not read. *)
Definition one_byte (p : place) (c : ascii) : option (list token * place) :=
  match p with
  | Gap ends => in_gap ends c
  | InWord x => if (letter c || digit c)%bool then Some ([], InWord (c :: x)) else after (Word (rev x)) (in_gap true c)
  | InNumber d => if digit c then Some ([], InNumber (c :: d))
                  else if (letter c || Ascii.eqb c ".")%bool then None
                  else match number (rev d) with Some n => after (Number n) (in_gap true c) | None => None end
  | InRaw s => if Ascii.eqb c "`" then Some ([Text (rev s)], Gap true)
               else if Ascii.eqb c cr then Some ([], InRaw s) else Some ([], InRaw (c :: s))
  | InQuotes s => if Ascii.eqb c """" then Some ([Text (rev s)], Gap true)
                  else if (Ascii.eqb c "\" || Ascii.eqb c nl)%bool then None else Some ([], InQuotes (c :: s))
  end.
Fixpoint tokens (p : place) (src : bytes) : option (list token) :=
  match src with
  | [] => match p with
          | Gap _ => Some []
          | InWord x => Some [Word (rev x)]
          | InNumber d => match number (rev d) with Some n => Some [Number n] | None => None end
          | InRaw _ | InQuotes _ => None
          end
  | c :: src' => match one_byte p c with
                 | Some (ts, p') => match tokens p' src' with Some ts' => Some (ts ++ ts') | None => None end
                 | None => None
                 end
  end.

(** * Expressions *)

Inductive expr :=
| EText (s : bytes)
| ENumber (n : nat)
| EName (x : bytes)                                    (* x *)
| EMember (pkg x : bytes)                              (* pkg.x *)
| EPlus (a b : expr)
| ECall (pkg f : bytes) (args : list expr)
| EComposite (pkg type : bytes) (elems : list (option expr * expr)).   (* with their keys, if any *)

(** An operand, then any number of [+ operand].  The argument and element lists may end with a comma. *)
Fixpoint read_expr (f : nat) (ts : list token) {struct f} : option (expr * list token) :=
  match f with
  | O => None
  | S f => match read_operand f ts with Some (a, ts') => read_sum f a ts' | None => None end
  end
with read_sum (f : nat) (a : expr) (ts : list token) {struct f} : option (expr * list token) :=
  match f with
  | O => None
  | S f =>
      match ts with
      | Sign "+" :: ts' => match read_operand f ts' with Some (b, ts'') => read_sum f (EPlus a b) ts'' | None => None end
      | _ => Some (a, ts)
      end
  end
with read_operand (f : nat) (ts : list token) {struct f} : option (expr * list token) :=
  match f with
  | O => None
  | S f =>
      match ts with
      | Text s :: ts' => Some (EText s, ts')
      | Number n :: ts' => Some (ENumber n, ts')
      | Word p :: Sign "." :: Word x :: Sign "(" :: ts' =>
          match read_list f ")" ts' with
          | Some (es, ts'') => if forallb (fun e : option expr * expr => match fst e with None => true | Some _ => false end) es
                               then Some (ECall p x (map snd es), ts'') else None
          | None => None
          end
      | Word p :: Sign "." :: Word x :: Sign "{" :: ts' =>
          match read_list f "}" ts' with Some (es, ts'') => Some (EComposite p x es, ts'') | None => None end
      | Word p :: Sign "." :: Word x :: ts' => Some (EMember p x, ts')
      | Word x :: ts' => Some (EName x, ts')
      | _ => None
      end
  end
with read_list (f : nat) (close : ascii) (ts : list token) {struct f} : option (list (option expr * expr) * list token) :=
  match f with
  | O => None
  | S f =>
      match ts with
      | Sign c :: ts' =>
          if Ascii.eqb c close then Some ([], ts') else None
      | _ =>
          match read_element f ts with
          | Some (e, Sign c :: ts') =>
              if Ascii.eqb c "," then match read_list f close ts' with Some (es, ts'') => Some (e :: es, ts'') | None => None end
              else if Ascii.eqb c close then Some ([e], ts')
              else None
          | _ => None
          end
      end
  end
with read_element (f : nat) (ts : list token) {struct f} : option ((option expr * expr) * list token) :=
  match f with
  | O => None
  | S f =>
      match read_expr f ts with
      | Some (k, Sign ":" :: ts') => match read_expr f ts' with Some (e, ts'') => Some ((Some k, e), ts'') | None => None end
      | Some (e, ts') => Some ((None, e), ts')
      | None => None
      end
  end.

(** * Values *)

Definition is_parser (pkg : bytes) (x : bytes) (y : string) : bool := (beqb pkg (bs "parser") && beqb x (bs y))%bool.
Fixpoint text_value (e : expr) : option bytes :=
  match e with
  | EText s => Some s
  | EPlus a b => match text_value a, text_value b with Some x, Some y => Some (x ++ y) | _, _ => None end
  | _ => None
  end.
Definition number_value (e : expr) : option nat := match e with ENumber n => Some n | _ => None end.
Definition bool_value (e : expr) : option bool :=
  match e with EName x => if beqb x (bs "true") then Some true else if beqb x (bs "false") then Some false else None | _ => None end.
Definition assoc_value (e : expr) : option assoc :=
  match e with
  | EMember p x =>
      if is_parser p x "LeftToRight" then Some LeftToRight else if is_parser p x "RightToLeft" then Some RightToLeft
      else if is_parser p x "NonAssociative" then Some NonAssociative else None
  | _ => None
  end.

(** The fields of a struct: keyed, each at most once and known, or without keys, all of them in their order. *)
Definition positional (es : list (option expr * expr)) : bool := forallb (fun e => match fst e with None => true | Some _ => false end) es.
Fixpoint field (x : string) (es : list (option expr * expr)) : option expr :=
  match es with
  | [] => None
  | (Some (EName y), e) :: es' => if beqb y (bs x) then Some e else field x es'
  | _ :: es' => field x es'
  end.
Fixpoint distinct (l : list bytes) : bool := match l with [] => true | x :: l' => (negb (existsb (beqb x) l') && distinct l')%bool end.
Definition key_name (e : option expr * expr) : bytes := match fst e with Some (EName y) => y | _ => [] end.
Definition struct_fields (names : list string) (es : list (option expr * expr)) : option (list (option expr)) :=
  if positional es then
    (if Nat.eqb (length es) (length names) then Some (map (fun e => Some (snd e)) es)
     else match es with [] => Some (map (fun _ => None) names) | _ => None end)
  else if (forallb (fun e => existsb (fun x => beqb (key_name e) (bs x)) names) es && distinct (map key_name es))%bool
       then Some (map (fun x => field x es) names)
       else None.
(** A field that is not given is zero. *)
Definition or_zero {A} (z : A) (v : expr -> option A) (e : option expr) : option A := match e with Some e => v e | None => Some z end.
Definition needed {A} (v : expr -> option A) (e : option expr) : option A := match e with Some e => v e | None => None end.
Definition opt_bind {A B} (o : option A) (f : A -> option B) : option B := match o with Some x => f x | None => None end.
Fixpoint all_some {A} (l : list (option A)) : option (list A) :=
  match l with [] => Some [] | x :: l' => opt_bind x (fun y => opt_bind (all_some l') (fun ys => Some (y :: ys))) end.

(** A term or a grammar. *)
Inductive value := VTerm (t : term) | VGrammar (g : grammar).
Definition as_term (v : option value) : option term := match v with Some (VTerm t) => Some t | _ => None end.
Definition as_grammar (v : option value) : option grammar := match v with Some (VGrammar g) => Some g | _ => None end.
Definition entry_key (e : option expr * expr) : option bytes := match fst e with Some k => text_value k | None => None end.

(** terms.go:16-171: the types and functions of the parser package. *)
Fixpoint value_of (f : nat) (e : expr) : option value :=
  match f with
  | O => None
  | S f =>
      let term_of := fun e => as_term (value_of f e) in
      let ok := fun o : option term => match o with Some t => Some (VTerm t) | None => None end in
      match e with
      | EMember p x => if is_parser p x "At" then Some (VTerm (TRule "@")) else None
      | ECall p g [a] =>
          if is_parser p g "S" then ok (opt_bind (text_value a) (fun s => Some (TS s)))
          else if is_parser p g "RE" then ok (opt_bind (text_value a) (fun s => Some (TRE s)))
          else if is_parser p g "Rule" then ok (opt_bind (text_value a) (fun s => Some (TRule (sb s))))
          else if is_parser p g "ExtRef" then ok (opt_bind (text_value a) (fun s => Some (TExtRef (sb s))))
          else if is_parser p g "Any" then ok (opt_bind (term_of a) (fun t => Some (Any t)))
          else if is_parser p g "Some" then ok (opt_bind (term_of a) (fun t => Some (Some_ t)))
          else if is_parser p g "Opt" then ok (opt_bind (term_of a) (fun t => Some (Opt t)))
          else None
      | ECall p g [a; b] =>
          if is_parser p g "Eq" then ok (opt_bind (text_value a) (fun n => opt_bind (term_of b) (fun t => Some (Eq_ (sb n) t)))) else None
      | EComposite p g es =>
          let terms_ := if positional es then all_some (map (fun e => term_of (snd e)) es) else None in
          if is_parser p g "Seq" then ok (opt_bind terms_ (fun ts => Some (TSeq ts)))
          else if is_parser p g "Oneof" then ok (opt_bind terms_ (fun ts => Some (TOneof ts)))
          else if is_parser p g "Stack" then ok (opt_bind terms_ (fun ts => Some (TStack ts)))
          else if is_parser p g "CutPoint" then
            match struct_fields ["Term"]%string es with
            | Some [t] => ok (opt_bind (needed term_of t) (fun t => Some (TCut t)))
            | _ => None
            end
          else if is_parser p g "LookAhead" then
            match struct_fields ["Term"]%string es with
            | Some [t] => ok (opt_bind (needed term_of t) (fun t => Some (TLookAhead t)))
            | _ => None
            end
          else if is_parser p g "Quant" then
            match struct_fields ["Term"; "Min"; "Max"]%string es with
            | Some [t; mn; mx] => ok (opt_bind (needed term_of t) (fun t => opt_bind (or_zero 0 number_value mn) (fun mn =>
                                  opt_bind (or_zero 0 number_value mx) (fun mx => Some (TQuant t mn mx)))))
            | _ => None
            end
          else if is_parser p g "Delim" then
            match struct_fields ["Term"; "Sep"; "Assoc"; "CanStartWithSep"; "CanEndWithSep"]%string es with
            | Some [t; sep; a; cs; ce] =>
                ok (opt_bind (needed term_of t) (fun t => opt_bind (needed term_of sep) (fun sep =>
                    opt_bind (or_zero NonAssociative assoc_value a) (fun a => opt_bind (or_zero false bool_value cs) (fun cs =>
                    opt_bind (or_zero false bool_value ce) (fun ce => Some (TDelim t sep a cs ce)))))))
            | _ => None
            end
          else if is_parser p g "REF" then
            match struct_fields ["Ident"; "Default"]%string es with
            | Some [i; d] => ok (opt_bind (or_zero [] text_value i) (fun i =>
                match d with
                | None => Some (TREF (sb i) None)
                | Some d => match term_of d with Some (TS s) => Some (TREF (sb i) (Some s)) | _ => None end
                end))
            | _ => None
            end
          else if is_parser p g "ScopedGrammar" then
            match struct_fields ["Term"; "Grammar"]%string es with
            | Some [t; g] => ok (opt_bind (needed term_of t) (fun t => opt_bind (or_zero [] (fun e => as_grammar (value_of f e)) g) (fun g =>
                Some (TScoped t g))))
            | _ => None
            end
          else if is_parser p g "Grammar" then
            opt_bind (all_some (map entry_key es)) (fun ks =>
            opt_bind (all_some (map (fun e => term_of (snd e)) es)) (fun ts =>
            if distinct ks then Some (VGrammar (combine (map sb ks) ts)) else None))
          else None
      | _ => None
      end
  end.

(** * Sources *)

(** Go sources are encoded in UTF-8 and have no zero bytes. *)
Definition tail_byte (c : ascii) : Prop := 128 <= nat_of_ascii c < 192.
Inductive utf8 : bytes -> Prop :=
| utf8_nil : utf8 []
| utf8_1 a s : 0 < nat_of_ascii a < 128 -> utf8 s -> utf8 (a :: s)
| utf8_2 a b s : 194 <= nat_of_ascii a < 224 -> tail_byte b -> utf8 s -> utf8 (a :: b :: s)
| utf8_3 a b c s : 224 <= nat_of_ascii a < 240 -> tail_byte b -> tail_byte c -> (nat_of_ascii a = 224 -> 160 <= nat_of_ascii b) ->
    (nat_of_ascii a = 237 -> nat_of_ascii b < 160) -> utf8 s -> utf8 (a :: b :: c :: s)
| utf8_4 a b c d s : 240 <= nat_of_ascii a < 245 -> tail_byte b -> tail_byte c -> tail_byte d -> (nat_of_ascii a = 240 -> 144 <= nat_of_ascii b) ->
    (nat_of_ascii a = 244 -> nat_of_ascii b < 144) -> utf8 s -> utf8 (a :: b :: c :: d :: s).

(** The grammar that an expression stands for. *)
Definition read_grammar (src : bytes) : option grammar :=
  match tokens (Gap false) src with
  | Some ts => match read_expr (S (4 * length ts)) ts with
               | Some (e, []) => as_grammar (value_of (S (length ts)) e)
               | _ => None
               end
  | None => None
  end.
Definition go_grammar (src : bytes) (g : grammar) : Prop := utf8 src /\ read_grammar src = Some g.
