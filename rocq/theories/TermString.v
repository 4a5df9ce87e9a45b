(** Model of the [String] methods of terms and grammars (parser/terms.go).  They are called by package fmt for "%v", which
    prints a text of its own where a [String] method panics, and by [join] and [CutPoint.String], where a panic goes on. *)
From Verif Require Import Base Scanner Syntax Resolve Codegen.

(** Go's strconv.Quote, for texts of characters below 128 (others are copied, or escaped with "\u", depending on tables of Unicode). *)
Definition hex_of (n : nat) : ascii := nth n (bs "0123456789abcdef") " "%char.
Definition quote_char (c : ascii) : bytes :=
  let n := nat_of_ascii c in
  if (Ascii.eqb c """" || Ascii.eqb c "\")%char%bool then ["\"%char; c]
  else if (Nat.leb 32 n && Nat.leb n 126)%bool then [c]
  else match n with
       | 7 => bs "\a" | 8 => bs "\b" | 9 => bs "\t" | 10 => bs "\n" | 11 => bs "\v" | 12 => bs "\f" | 13 => bs "\r"
       | _ => bs "\x" ++ [hex_of (n / 16); hex_of (n mod 16)]
       end.
Definition ascii_quote (s : bytes) : bytes := """"%char :: flat_map quote_char s ++ [""""%char].

Section Strings.
  (** What fmt makes of a string for "%q". *)
  Variable quote : bytes -> bytes.

  (** terms.go:107-115 [Associativity.String]. *)
  Definition assoc_string (a : assoc) : bytes :=
    match a with RightToLeft => bs "<:" | LeftToRight => bs ":>" | NonAssociative => bs ":" end.
  (** fmt's [catchPanic]: what "%v" prints if the [String] method panics with errors.Inconceivable. *)
  Definition panic_text : bytes := bs "%!v(PANIC=String method: How did this happen!?)".
  Definition formatted (s : option bytes) : bytes := match s with Some x => x | None => panic_text end.
  (** terms.go:173-179 [join]; [None] is a panic. *)
  Fixpoint all_some (l : list (option bytes)) : option (list bytes) :=
    match l with
    | [] => Some []
    | Some x :: l' => option_map (cons x) (all_some l')
    | None :: _ => None
    end.
  Definition join_terms (sep : string) (l : list (option bytes)) : option bytes := option_map (join (bs sep)) (all_some l).
  (** terms.go:238-257, what follows the term of a [Quant]; [None] is the panic for {1,1}. *)
  Definition quant_suffix (mn mx : nat) : option bytes :=
    match mn, mx with
    | 0, 0 => Some (bs "*")
    | 0, 1 => Some (bs "?")
    | 1, 0 => Some (bs "+")
    | 1, 1 => None
    | _, _ => Some (bs "{" ++ (if Nat.eqb mn 0 then [] else bs (dec mn)) ++ bs "," ++ (if Nat.eqb mx 0 then [] else bs (dec mx)) ++ bs "}")
    end.
  (** terms.go:189-209 [Grammar.String], given what "%v" prints for the terms. *)
  Fixpoint write_rules (rules : list (string * bytes)) (ks : list string) (first : bool) : bytes :=
    match ks with
    | [] => []
    | k :: ks' => (if first then [] else bs "; ") ++ bs k ++ bs " -> " ++ match lookup k rules with Some x => x | None => [] end ++ write_rules rules ks' false
    end.
  Definition rules_string (rules : list (string * bytes)) : bytes :=
    write_rules rules (sort_strings (keys rules)) true ++ (if Nat.ltb 1 (length rules) then bs ";" else []).
  (** terms.go:211-263, the [String] methods; [None] is a panic. *)
  Fixpoint term_string (t : term) : option bytes :=
    match t with
    | TRule r => Some (bs r)
    | TS s => Some (quote s)
    | TRE s => Some (bs "/" ++ s ++ bs "/")
    | TREF i d => Some (bs "%" ++ bs i ++ bs "=" ++ match d with Some s => quote s | None => bs "<nil>" end)
    | TExtRef x => Some (bs x)
    | TSeq ts => option_map (fun x => bs "(" ++ x ++ bs ")") (join_terms " " (map term_string ts))
    | TOneof ts => join_terms " | " (map term_string ts)
    | TStack ts => join_terms " > " (map term_string ts)
    | TNamed n t => Some (bs n ++ bs "=" ++ formatted (term_string t))
    | TLookAhead t => Some (bs "(?=" ++ formatted (term_string t) ++ bs ")")
    | TCut t => option_map (fun x => bs "cutpoint {" ++ x ++ bs "}") (term_string t)
    | TDelim t sep a l r =>
        Some (formatted (term_string t) ++ assoc_string a ++ (if l then bs "," else []) ++ formatted (term_string sep) ++ (if r then bs "," else []))
    | TQuant t mn mx => option_map (fun x => formatted (term_string t) ++ x) (quant_suffix mn mx)
    | TScoped t g => Some (formatted (term_string t) ++ bs " { " ++ rules_string (map (fun kv => (fst kv, formatted (term_string (snd kv)))) g) ++ bs " }")
    end.
  Definition grammar_string (g : grammar) : bytes := rules_string (map (fun kv => (fst kv, formatted (term_string (snd kv)))) g).
End Strings.
