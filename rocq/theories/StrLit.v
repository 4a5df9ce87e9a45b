(** Reading literals of the grammar language: strings, regexps and numbers
    (wbnf/compile.go). *)
From Verif Require Import Base Regex.
Local Open Scope char_scope.

Definition bslash : ascii := "\".
Definition bquote : ascii := "`".

(** Go [strings.ReplaceAll(s, "``", "`")] as used at compile.go:26: non-overlapping
    occurrences, left to right. *)
Fixpoint undouble (s : bytes) : bytes :=
  match s with
  | [] => []
  | c :: s1 =>
      match s1 with
      | d :: s2 => if Ascii.eqb c bquote && Ascii.eqb d bquote then bquote :: undouble s2 else c :: undouble s1
      | [] => [c]
      end
  end.

(** Go [strconv.ParseInt(s, base, bits)] for base 8 and 16: an optional sign, then digits of
    the base; [None] is an error (no digits, a character that is not a digit of the base, or a
    value out of range for a signed number of that many bits). *)
Definition digit_val (c : ascii) : option Z :=
  let n := Z.of_nat (nat_of_ascii c) in
  if (48 <=? n)%Z && (n <=? 57)%Z then Some (n - 48)%Z
  else if (97 <=? n)%Z && (n <=? 122)%Z then Some (n - 87)%Z
  else if (65 <=? n)%Z && (n <=? 90)%Z then Some (n - 55)%Z
  else None.

Fixpoint digits (base : Z) (s : bytes) (acc : Z) : option Z :=
  match s with
  | [] => Some acc
  | c :: s' =>
      match digit_val c with
      | Some d => if (d <? base)%Z then digits base s' (acc * base + d)%Z else None
      | None => None
      end
  end.

Definition parse_int (base bits : Z) (s : bytes) : option Z :=
  let '(neg, body) :=
    match s with
    | c :: s' => if Ascii.eqb c "+" then (false, s') else if Ascii.eqb c "-" then (true, s') else (false, s)
    | [] => (false, s)
    end in
  match body with
  | [] => None
  | _ => match digits base body 0%Z with
         | Some n =>
             if neg then if (n <=? 2 ^ (bits - 1))%Z then Some (- n)%Z else None
             else if (n <? 2 ^ (bits - 1))%Z then Some n else None
         | None => None
         end
  end.

(** Go [uint8(n)] for an int64. *)
Definition to_byte (n : Z) : ascii := ascii_of_nat (Z.to_nat (n mod 256)).

(** compile.go:62-81, the one-character escapes, in the order of the switch. *)
Definition simple_escape (quote e : ascii) : option ascii :=
  if Ascii.eqb e "a" then Some bel
  else if Ascii.eqb e "b" then Some (ascii_of_nat 8)
  else if Ascii.eqb e "f" then Some ff
  else if Ascii.eqb e "n" then Some nl
  else if Ascii.eqb e "r" then Some cr
  else if Ascii.eqb e "t" then Some tab
  else if Ascii.eqb e "v" then Some vtab
  else if Ascii.eqb e bslash then Some bslash
  else if Ascii.eqb e "'" then Some "'"
  else if Ascii.eqb e quote then Some quote
  else None.

Definition is_octal (c : ascii) : bool := cle "0" c && cle c "7".

Definition emit (n : option Z) (rest : option bytes) : option bytes :=
  match n, rest with Some n, Some r => Some (to_byte n :: r) | _, _ => None end.

(** compile.go:28-88, the loop over the text between the quotes; [None] is a panic (index out
    of range, ParseInt error or unrecognized escape).  The index arithmetic is turned into
    matching on the remaining text: after ["\x"] the loop resumes two bytes after the [x],
    after ["\u"] three, after ["\U"] five, after an octal digit two. *)
Fixpoint unescape (quote : ascii) (s : bytes) : option bytes :=
  match s with
  | [] => Some []
  | c :: s1 =>
      if Ascii.eqb c bslash then
        match s1 with
        | [] => None
        | e :: s2 =>
            if Ascii.eqb e "x" then
              match s2 with
              | h1 :: r => emit (parse_int 16 8 [e; h1]) (unescape quote r)
              | _ => None
              end
            else if Ascii.eqb e "u" then
              match s2 with
              | h1 :: h2 :: ((h3 :: _) as r) => emit (parse_int 16 16 [e; h1; h2; h3]) (unescape quote r)
              | _ => None
              end
            else if Ascii.eqb e "U" then
              match s2 with
              | h1 :: h2 :: h3 :: h4 :: ((h5 :: h6 :: h7 :: _) as r) =>
                  emit (parse_int 16 32 [e; h1; h2; h3; h4; h5; h6; h7]) (unescape quote r)
              | _ => None
              end
            else if is_octal e then
              match s2 with
              | o2 :: ((o3 :: _) as r) => emit (parse_int 8 8 [e; o2; o3]) (unescape quote r)
              | _ => None
              end
            else match simple_escape quote e, unescape quote s2 with
                 | Some x, Some r => Some (x :: r)
                 | _, _ => None
                 end
        end
      else match unescape quote s1 with Some r => Some (c :: r) | None => None end
  end.

(** compile.go:22-90 [parseString]; [None] is a panic. *)
Definition parse_string (s : bytes) : option bytes :=
  match s with
  | quote :: (_ :: _) as r =>
      let s := removelast (tl s) in
      if Ascii.eqb quote bquote then Some (undouble s) else unescape quote s
  | _ => None
  end.

(** compile.go:92,133 [whitespaceRE.ReplaceAllString(name, "")]; Go's [\s] is tab, newline,
    form feed, carriage return and space. *)
Definition is_space (c : ascii) : bool := in_set false space_ranges c.
Definition strip_space (s : bytes) : bytes := filter (fun c => negb (is_space c)) s.

(** [(?:\\\\)*\\_] at the front of a text: the pairs of backslashes and what follows the
    match.  The pattern has only one way to match, so greediness plays no role. *)
Fixpoint escaped_tail (s : bytes) : option (bytes * bytes) :=
  match s with
  | c :: d :: r =>
      if Ascii.eqb c bslash then
        if Ascii.eqb d "_" then Some ([], r)
        else if Ascii.eqb d bslash then
          match escaped_tail r with Some (p, q) => Some (c :: d :: p, q) | None => None end
        else None
      else None
  | _ => None
  end.

(** compile.go:93,135 [escapedSpaceRE.ReplaceAllString(s, "$1 ")]: leftmost matches that do
    not overlap; [start] tells whether [\A] holds at the front of [s].  Bytes instead of runes:
    the character before the backslashes is copied unchanged either way.  Fuel is the length of
    the text. *)
Fixpoint unspace_from (fuel : nat) (start : bool) (s : bytes) : bytes :=
  match fuel with
  | O => s
  | S n =>
      match (if start then escaped_tail s else None) with
      | Some (p, r) => p ++ " " :: unspace_from n false r
      | None =>
          match s with
          | [] => []
          | c :: s1 =>
              match (if Ascii.eqb c bslash then None else escaped_tail s1) with
              | Some (p, r) => c :: p ++ " " :: unspace_from n false r
              | None => c :: unspace_from n false s1
              end
          end
      end
  end.
Definition unspace (s : bytes) : bytes := unspace_from (length s) true s.

(** compile.go:132-140, the RE case of [buildAtom]: the text of the regexp; [None] is the
    slice panic. *)
Definition parse_regexp (s : bytes) : option bytes :=
  let s := unspace (unspace (strip_space s)) in
  if has_prefix (bs "/{") s then
    match s with
    | _ :: _ :: (_ :: _) as r => Some (removelast (tl (tl s)))
    | _ => None
    end
  else Some s.
