(** How grammars are written down: the tokens of the grammar language, the layout of a text, and the token
    sequences for grammars without macros, imports and nested grammars. *)
From Verif Require Import Base Scanner Syntax Engine Regex WbnfGrammar StrLit NumSpec TextSpec.
Local Open Scope char_scope.
Local Open Scope list_scope.

(** * Characters *)
Definition within (lo hi c : ascii) : bool := (Nat.leb (nat_of_ascii lo) (nat_of_ascii c) && Nat.leb (nat_of_ascii c) (nat_of_ascii hi))%bool.
Definition letter (c : ascii) : bool := (within "A" "Z" c || within "a" "z" c || Ascii.eqb c "_")%bool.
Definition digit (c : ascii) : bool := within "0" "9" c.
Definition wordly (c : ascii) : bool := (letter c || digit c)%bool.
Definition member (c : ascii) (l : bytes) : bool := existsb (Ascii.eqb c) l.
(** White space: tabs, newlines, form feeds, carriage returns and spaces. *)
Definition white (c : ascii) : bool := member c (map ascii_of_nat [9; 10; 12; 13; 32]).

(** * Tokens *)
(** Names: "@", or a letter or underscore and word characters, with a dot in front of them or not. *)
Definition name_token (t : bytes) : Prop :=
  t = ["@"] \/ exists dot c w, t = dot ++ c :: w /\ (dot = [] \/ dot = ["."]) /\ letter c = true /\ forallb wordly w = true.
Definition int_token (t : bytes) : Prop := t <> [] /\ forallb digit t = true.
(** Strings: between quotes, where a backslash takes the next character (not a newline) with it; between back
    quotes, where back quotes come in pairs. *)
Inductive quoted (q : ascii) : bytes -> Prop :=
| qu_end : quoted q []
| qu_pair : forall c b, c <> nl -> quoted q b -> quoted q ("\" :: c :: b)
| qu_plain : forall c b, c <> q -> c <> "\" -> quoted q b -> quoted q (c :: b).
Inductive raw : bytes -> Prop :=
| raw_end : raw []
| raw_pair : forall b, raw b -> raw ("`" :: "`" :: b)
| raw_plain : forall c b, c <> "`" -> raw b -> raw (c :: b).
Definition string_token (t : bytes) : Prop :=
  (exists q b, In q [""""; "'"] /\ t = q :: b ++ [q] /\ quoted q b) \/ exists b, t = "`" :: b ++ ["`"] /\ raw b.
(** Regular expressions.  A class holds no brackets and no backslashes. *)
Definition class_text (t : bytes) : Prop :=
  exists b, t = "[" :: b ++ ["]"] /\ b <> [] /\ forallb (fun c => negb (member c ["["; "]"; "\"])) b = true.
(** Between "/{" and "}": pairs of a backslash and a character, classes, and other characters. *)
Inductive braced : bytes -> Prop :=
| br_end : braced []
| br_pair : forall c b, c <> nl -> braced b -> braced ("\" :: c :: b)
| br_class : forall t b, class_text t -> braced b -> braced (t ++ b)
| br_plain : forall c b, member c ["\"; "{"; "}"; "["] = false -> braced b -> braced (c :: b).
(** Without braces: classes, escaped letters and one of . ^ $, each with one of ? * + behind it or not. *)
Definition piece_text (t : bytes) : Prop :=
  class_text t \/ (exists c, t = ["\"; c] /\ letter c = true /\ member c ["p"; "P"; "_"] = false) \/ exists c, t = [c] /\ In c ["."; "^"; "$"].
Inductive unbraced : bytes -> Prop :=
| ub_one : forall t q, piece_text t -> (q = [] \/ exists c, q = [c] /\ In c ["?"; "*"; "+"]) -> unbraced (t ++ q)
| ub_more : forall t q b, piece_text t -> (q = [] \/ exists c, q = [c] /\ In c ["?"; "*"; "+"]) -> unbraced b -> unbraced ((t ++ q) ++ b).
Definition regexp_token (t : bytes) : Prop := (exists b, t = bs "/{" ++ b ++ ["}"] /\ braced b) \/ unbraced t.

Inductive token := Name (t : bytes) | Number (t : bytes) | Text (t : bytes) | Regexp (t : bytes) | Sign (s : string).
Definition spelling (k : token) : bytes := match k with Name t | Number t | Text t | Regexp t => t | Sign s => bs s end.

(** * Layout *)
(** White space may stand around every token.  Between two tokens there has to be some if the first would go on
    with the next character: words, strings in back quotes, regular expressions without braces. *)
Definition glued (k : token) (c : ascii) : bool :=
  match k with
  | Name _ | Number _ => wordly c
  | Text t => (Ascii.eqb (hd " " t) "`" && Ascii.eqb c "`")%bool
  | Regexp t => (negb (Ascii.eqb (hd " " t) "/") && (wordly c || member c ["["; "\"; "."; "^"; "$"; "?"; "*"; "+"; "{"]))%bool
  | Sign _ => false
  end.
(** [lays ks y x]: the text [x] is the tokens [ks] with white space after them and then [y]. *)
Inductive lays : list token -> bytes -> bytes -> Prop :=
| ly_end : forall y, lays [] y y
| ly_next : forall k ks w x y, forallb white w = true -> (w = [] -> forall c z, x = c :: z -> glued k c = false) ->
    lays ks y x -> lays (k :: ks) y (spelling k ++ w ++ x).

(** * Terms *)
(** The levels of a term: stacks of alternatives of sequences of items; a list of one is written as its element. *)
Definition leveled (k : list ctext -> ctext) (cs : list ctext) : ctext := match cs with [c] => CSeq [c] | _ => k cs end.

(** A bound of a repetition; 0 if there is none. *)
Inductive writes_bound : nat -> list token -> Prop :=
| wb_none : writes_bound 0 []
| wb_some : forall t k, int_token t -> numeral t k -> is_int k -> writes_bound k [Number t].
Definition comma (b : bool) : list token := if b then [Sign ","] else [].

Inductive writes : nat -> ctext -> list token -> Prop :=
| w_stack : forall cs ks, writes_list ">" 1 cs ks -> writes 0 (leveled CStack cs) ks
| w_choice : forall cs ks, writes_list "|" 2 cs ks -> writes 1 (leveled CChoice cs) ks
| w_seq : forall cs ks, writes_items cs ks -> writes 2 (CSeq cs) ks
| w_item : forall n a qs ks us, writes_named n a ks -> writes_quants qs us -> writes 3 (CLeaf n a qs) (ks ++ us)
with writes_list : string -> nat -> list ctext -> list token -> Prop :=
| wl_one : forall op n c ks, writes n c ks -> writes_list op n [c] ks
| wl_more : forall op n c cs ks us, writes n c ks -> writes_list op n cs us -> writes_list op n (c :: cs) (ks ++ Sign op :: us)
with writes_items : list ctext -> list token -> Prop :=
| wi_one : forall c ks, writes 3 c ks -> writes_items [c] ks
| wi_more : forall c cs ks us, writes 3 c ks -> writes_items cs us -> writes_items (c :: cs) (ks ++ us)
with writes_named : string -> ctext -> list token -> Prop :=
| wn_bare : forall a ks, writes_atom a ks -> writes_named "" a ks
| wn_name : forall t a ks, name_token t -> writes_atom a ks -> writes_named (sb t) a (Name t :: Sign "=" :: ks)
with writes_atom : ctext -> list token -> Prop :=
| wa_rule : forall t, name_token t -> writes_atom (CRule (sb t)) [Name t]
| wa_lit : forall t v, string_token t -> parse_string t = Some v -> writes_atom (CLit v) [Text t]
| wa_re : forall t v, regexp_token t -> parse_regexp t = Some v -> writes_atom (CRe v) [Regexp t]
| wa_ref : forall t, name_token t -> writes_atom (CRef (sb t) None) [Sign "%"; Name t]
| wa_ref_default : forall t d v, name_token t -> string_token d -> parse_string d = Some v ->
    writes_atom (CRef (sb t) (Some v)) [Sign "%"; Name t; Sign "="; Text d]
| wa_ext : forall t, name_token t -> writes_atom (CExt (sb t)) [Sign "%%"; Name t]
| wa_look : forall c ks, writes 0 c ks -> writes_atom (CLook (CSeq [c])) (Sign "(?=" :: ks ++ [Sign ")"])
| wa_group : forall c ks, writes 0 c ks -> writes_atom (CGroup c) (Sign "(" :: ks ++ [Sign ")"])
| wa_none : writes_atom CNone [Sign "("; Sign ")"]
with writes_quants : list (quant ctext) -> list token -> Prop :=
| wq_end : writes_quants [] []
| wq_next : forall q qs ks us, writes_quant q ks -> writes_quants qs us -> writes_quants (q :: qs) (ks ++ us)
with writes_quant : quant ctext -> list token -> Prop :=
| wq_star : writes_quant (QRep 0 0 false) [Sign "*"]
| wq_opt : writes_quant (QRep 0 1 false) [Sign "?"]
| wq_plus : writes_quant (QRep 1 0 true) [Sign "+"]
| wq_upto : forall mx ks, writes_bound mx ks -> writes_quant (QRep 0 mx false) (Sign "{" :: Sign "," :: ks ++ [Sign "}"])
| wq_range : forall t mn mx ks, int_token t -> numeral t mn -> is_int mn -> writes_bound mx ks ->
    writes_quant (QRep mn mx (negb (String.eqb (sb t) "0"))) (Sign "{" :: Number t :: Sign "," :: ks ++ [Sign "}"])
| wq_list : forall op a name sep l r ks, direction op a -> writes_named name sep ks ->
    writes_quant (QList a name sep l r) (Sign op :: comma l ++ ks ++ comma r).

(** * Grammars *)
(** What a comment between slash-star and star-slash may contain: one character, or stars and one more character. *)
Definition block_body (b : bytes) : Prop :=
  (exists c, b = [c] /\ c <> "*"%char) \/ exists n c, b = repeat "*"%char (S n) ++ [c] /\ c <> "*"%char /\ c <> "/"%char.
Definition block (b : bytes) : bytes := bs "/*" ++ b ++ bs "*/".
(** The comment ends where star-slash is first. *)
Definition closed (b : bytes) : Prop := forall p q, b ++ bs "*/" = p ++ bs "*/" ++ q -> q = [].
(** Productions, comments up to the end of a line and comments between slash-star and star-slash. *)
Inductive statement := Rule (x : string) (c : ctext) | Note (t : bytes).
Inductive writes_text : list statement -> bytes -> Prop :=
| wt_end : writes_text [] []
| wt_rule : forall t c ks ss x y, name_token t -> writes 0 c ks -> writes_text ss y ->
    lays (Name t :: Sign "->" :: ks ++ [Sign ";"]) y x -> writes_text (Rule (sb t) c :: ss) x
| wt_note : forall t ss w y, ~ In nl t -> writes_text ss y -> forallb white w = true -> (w = [] /\ y = [] \/ exists w', w = nl :: w') ->
    writes_text (Note (bs "//" ++ t) :: ss) ((bs "//" ++ t) ++ w ++ y)
| wt_block : forall b ss w y, block_body b -> writes_text ss y -> forallb white w = true -> writes_text (Note (block b) :: ss) (block b ++ w ++ y).
(** Statements whose last is a production without its semicolon. *)
Inductive unfinished : bytes -> Prop :=
| uf_last : forall t c ks x, name_token t -> writes 0 c ks -> lays (Name t :: Sign "->" :: ks) [] x -> unfinished x
| uf_rule : forall t c ks x y, name_token t -> writes 0 c ks -> unfinished y -> lays (Name t :: Sign "->" :: ks ++ [Sign ";"]) y x -> unfinished x
| uf_note : forall t w y, ~ In nl t -> unfinished y -> forallb white w = true -> unfinished ((bs "//" ++ t) ++ (nl :: w) ++ y)
| uf_block : forall b w y, block_body b -> unfinished y -> forallb white w = true -> unfinished (block b ++ w ++ y).
(** The text of a grammar, with white space in front. *)
Definition text_of (ss : list statement) (x : bytes) : Prop := ss <> [] /\ exists w y, x = w ++ y /\ forallb white w = true /\ writes_text ss y.
Definition rules_of (ss : list statement) : list (string * list ctext) :=
  flat_map (fun s => match s with Rule x c => [(x, [c])] | Note _ => [] end) ss.

(** * Engines *)
(** The patterns of the tokens of the grammar language, as written there. *)
Fixpoint patterns_of (t : term) : list bytes :=
  match t with
  | TS x => [quote_meta x]
  | TRE x => [x]
  | TRule _ | TREF _ _ | TExtRef _ => []
  | TSeq ts | TOneof ts | TStack ts => flat_map patterns_of ts
  | TDelim t sep _ _ _ => patterns_of t ++ patterns_of sep
  | TLookAhead t | TQuant t _ _ | TNamed _ t | TCut t => patterns_of t
  | TScoped t g => patterns_of t ++ flat_map (fun kv : string * term => patterns_of (snd kv)) g
  end.
Definition wbnf_patterns : list bytes := flat_map (fun kv : string * term => patterns_of (snd kv)) wbnf_grammar.
(** An engine that finds these tokens between white space as regular expressions do (see Regex.v). *)
Definition finds_tokens (E : engine) : Prop := forall x t, In x wbnf_patterns ->
  re_find E (anchor ++ bs "\s*(?:" ++ group x ++ bs ")\s*") t = re_find regex_engine (anchor ++ bs "\s*(?:" ++ group x ++ bs ")\s*") t.
