(** A concrete regular-expression engine: a subset of RE2 syntax, leftmost-first
    (backtracking) semantics, working on bytes.  It is not part of the modelled code; it
    shows that the contract [engine_ok] of Engine.v can be met and lets the examples run.
    It agrees with Go's engine on ASCII patterns and texts of the supported syntax; it has no
    Unicode classes, no case folding, no \Q..\E, no backreferences (neither has RE2). *)
From Verif Require Import Base Scanner Engine.
Local Open Scope Z_scope.

(** * Abstract syntax *)
Inductive akind := ABegText | AEndText | ABegLine | AEndLine | AWord | ANoWord.

Inductive re :=
| REps
| RSet (neg : bool) (rs : list (ascii * ascii))
| RCat (a b : re)
| RAlt (a b : re)
| RStar (greedy : bool) (a : re)
| ROpt (greedy : bool) (a : re)
| RGroup (n : nat) (a : re)
| RAssert (k : akind).

(** * Matching *)
Record mstate := mkM { mpos : Z; mprev : option ascii; mrest : bytes; mcaps : list (nat * (Z * Z)) }.

Definition cle (a b : ascii) : bool := Nat.leb (nat_of_ascii a) (nat_of_ascii b).
Definition in_set (neg : bool) (rs : list (ascii * ascii)) (c : ascii) : bool :=
  xorb neg (existsb (fun r => cle (fst r) c && cle c (snd r)) rs).

Definition word_ranges : list (ascii * ascii) :=
  [("0"%char, "9"%char); ("A"%char, "Z"%char); ("_"%char, "_"%char); ("a"%char, "z"%char)].
Definition is_word (c : ascii) : bool := in_set false word_ranges c.
Definition at_word (o : option ascii) : bool := match o with Some c => is_word c | None => false end.

Definition assert_ok (k : akind) (st : mstate) : bool :=
  match k with
  | ABegText => mpos st =? 0
  | AEndText => match mrest st with [] => true | _ => false end
  | ABegLine => match mprev st with None => true | Some c => Ascii.eqb c nl end
  | AEndLine => match mrest st with [] => true | c :: _ => Ascii.eqb c nl end
  | AWord => xorb (at_word (mprev st)) (at_word (hd_error (mrest st)))
  | ANoWord => negb (xorb (at_word (mprev st)) (at_word (hd_error (mrest st))))
  end.

Definition orelse {A} (x : option A) (y : unit -> option A) : option A :=
  match x with Some a => Some a | None => y tt end.

Fixpoint cap_set (i : nat) (g : Z * Z) (l : list (nat * (Z * Z))) : list (nat * (Z * Z)) :=
  match l with
  | [] => [(i, g)]
  | (j, h) :: l' => if Nat.eqb i j then (i, g) :: l' else (j, h) :: cap_set i g l'
  end.
Fixpoint cap_get (i : nat) (l : list (nat * (Z * Z))) : option (Z * Z) :=
  match l with
  | [] => None
  | (j, h) :: l' => if Nat.eqb i j then Some h else cap_get i l'
  end.

Section StarLoop.
  Variable step : mstate -> (mstate -> option mstate) -> option mstate.
  Variable greedy : bool.
  Variable k : mstate -> option mstate.
  Fixpoint star_loop (n : nat) (st : mstate) : option mstate :=
    match n with
    | O => k st
    | S n' =>
        let more := fun _ : unit => step st (fun st' =>
          if Nat.ltb (length (mrest st')) (length (mrest st)) then star_loop n' st' else None) in
        if greedy then orelse (more tt) (fun _ => k st) else orelse (k st) more
    end.
End StarLoop.

Fixpoint mt (r : re) (st : mstate) (k : mstate -> option mstate) {struct r} : option mstate :=
  match r with
  | REps => k st
  | RSet neg rs =>
      match mrest st with
      | c :: rest => if in_set neg rs c then k (mkM (mpos st + 1) (Some c) rest (mcaps st)) else None
      | [] => None
      end
  | RCat a b => mt a st (fun st' => mt b st' k)
  | RAlt a b => orelse (mt a st k) (fun _ => mt b st k)
  | RStar g a => star_loop (mt a) g k (S (length (mrest st))) st
  | ROpt g a => if g then orelse (mt a st k) (fun _ => k st) else orelse (k st) (fun _ => mt a st k)
  | RGroup n a => mt a st (fun st' =>
      k (mkM (mpos st') (mprev st') (mrest st') (cap_set n (mpos st, mpos st') (mcaps st'))))
  | RAssert a => if assert_ok a st then k st else None
  end.

(** Try every start position from the left. *)
Fixpoint search (r : re) (pos : Z) (prev : option ascii) (rest : bytes) {struct rest}
  : option (Z * mstate) :=
  match mt r (mkM pos prev rest []) Some with
  | Some st => Some (pos, st)
  | None => match rest with
            | [] => None
            | c :: rest' => search r (pos + 1) (Some c) rest'
            end
  end.

(** * Lexing *)
Inductive tok :=
| KSet (neg : bool) (rs : list (ascii * ascii))
| KDot | KHat | KDollar
| KAssert (k : akind)
| KOpen
| KOpenNC (fm fs : option bool)      (* (?flags: *)
| KFlags (fm fs : option bool)       (* (?flags) *)
| KClose | KBar
| KRep (mn : nat) (mx : option nat) (greedy : bool).

Definition lit (c : ascii) : list (ascii * ascii) := [(c, c)].
Definition is_digit (c : ascii) : bool := cle "0"%char c && cle c "9"%char.
Definition is_alpha (c : ascii) : bool :=
  (cle "a"%char c && cle c "z"%char) || (cle "A"%char c && cle c "Z"%char).

Definition digit_ranges := [("0"%char, "9"%char)].
Definition tab := ascii_of_nat 9.
Definition vtab := ascii_of_nat 11.
Definition ff := ascii_of_nat 12.
Definition cr := ascii_of_nat 13.
Definition bel := ascii_of_nat 7.
Definition space_ranges : list (ascii * ascii) := [(tab, nl); (ff, cr); (" "%char, " "%char)].
Definition maxc := ascii_of_nat 255.
Definition minc := ascii_of_nat 0.

(** Complement of a sorted list of disjoint ranges. *)
Fixpoint complement_from (lo : nat) (rs : list (ascii * ascii)) : list (ascii * ascii) :=
  match rs with
  | [] => if Nat.leb lo 255 then [(ascii_of_nat lo, maxc)] else []
  | (a, b) :: rs' =>
      (if Nat.ltb lo (nat_of_ascii a) then [(ascii_of_nat lo, ascii_of_nat (nat_of_ascii a - 1))] else [])
      ++ complement_from (S (nat_of_ascii b)) rs'
  end.
Definition complement := complement_from 0.

Definition hexval (c : ascii) : option nat :=
  if is_digit c then Some (nat_of_ascii c - 48)%nat
  else if cle "a"%char c && cle c "f"%char then Some (nat_of_ascii c - 87)%nat
  else if cle "A"%char c && cle c "F"%char then Some (nat_of_ascii c - 55)%nat
  else None.

(** A class escape: \d \D \w \W \s \S. *)
Definition class_escape (c : ascii) : option (list (ascii * ascii)) :=
  if Ascii.eqb c "d" then Some digit_ranges
  else if Ascii.eqb c "D" then Some (complement digit_ranges)
  else if Ascii.eqb c "w" then Some word_ranges
  else if Ascii.eqb c "W" then Some (complement word_ranges)
  else if Ascii.eqb c "s" then Some space_ranges
  else if Ascii.eqb c "S" then Some (complement space_ranges)
  else None.

(** A character escape, after the backslash: the character and the rest. *)
Definition char_escape (x : bytes) : option (ascii * bytes) :=
  match x with
  | [] => None
  | c :: x' =>
      if Ascii.eqb c "t" then Some (tab, x')
      else if Ascii.eqb c "n" then Some (nl, x')
      else if Ascii.eqb c "r" then Some (cr, x')
      else if Ascii.eqb c "f" then Some (ff, x')
      else if Ascii.eqb c "v" then Some (vtab, x')
      else if Ascii.eqb c "a" then Some (bel, x')
      else if Ascii.eqb c "x" then
        match x' with
        | h :: l :: x'' => match hexval h, hexval l with
                           | Some a, Some b => Some (ascii_of_nat (a * 16 + b), x'')
                           | _, _ => None
                           end
        | _ => None
        end
      else if is_ascii c && negb (is_digit c) && negb (is_alpha c) then Some (c, x')
      else None
  end.

Definition assert_escape (c : ascii) : option akind :=
  if Ascii.eqb c "A" then Some ABegText
  else if Ascii.eqb c "z" then Some AEndText
  else if Ascii.eqb c "b" then Some AWord
  else if Ascii.eqb c "B" then Some ANoWord
  else None.

Definition posix : list (bytes * list (ascii * ascii)) :=
  [ (bs "alnum:]", [("0"%char, "9"%char); ("A"%char, "Z"%char); ("a"%char, "z"%char)]);
    (bs "alpha:]", [("A"%char, "Z"%char); ("a"%char, "z"%char)]);
    (bs "digit:]", digit_ranges);
    (bs "lower:]", [("a"%char, "z"%char)]);
    (bs "upper:]", [("A"%char, "Z"%char)]);
    (bs "space:]", [(tab, cr); (" "%char, " "%char)]);
    (bs "word:]", word_ranges) ].

Fixpoint find_posix (tbl : list (bytes * list (ascii * ascii))) (x : bytes)
  : option (list (ascii * ascii) * bytes) :=
  match tbl with
  | [] => None
  | (n, rs) :: tbl' => if has_prefix n x then Some (rs, skipn (length n) x) else find_posix tbl' x
  end.

(** One character of a class (for ranges). *)
Definition class_char (x : bytes) : option (ascii * bytes) :=
  match x with
  | [] => None
  | c :: x' => if Ascii.eqb c "\" then char_escape x' else Some (c, x')
  end.

(** The items of a class after the optional ^ up to the closing bracket. *)
Fixpoint class_items (fuel : nat) (first : bool) (x : bytes) (acc : list (ascii * ascii))
  : option (list (ascii * ascii) * bytes) :=
  match fuel with
  | O => None
  | S f =>
      match x with
      | [] => None
      | c :: x' =>
          if Ascii.eqb c "]" && negb first then Some (acc, x')
          else
            match (if Ascii.eqb c "\"
                   then match x' with d :: x'' => match class_escape d with Some rs => Some (rs, x'') | None => None end
                                    | [] => None end
                   else if Ascii.eqb c "[" && has_prefix (bs ":") x'
                   then find_posix posix (tl x')
                   else None) with
            | Some (rs, y) => class_items f false y (acc ++ rs)
            | None =>
                if Ascii.eqb c "[" && has_prefix (bs ":") x' then None
                else
                  match class_char x with
                  | None => None
                  | Some (lo, y) =>
                      match y with
                      | d :: y' =>
                          if Ascii.eqb d "-" then
                            match y' with
                            | [] => None
                            | e :: _ =>
                                if Ascii.eqb e "]" then class_items f false y (acc ++ lit lo)
                                else match class_char y' with
                                     | Some (hi, z) =>
                                         if cle lo hi then class_items f false z (acc ++ [(lo, hi)]) else None
                                     | None => None
                                     end
                            end
                          else class_items f false y (acc ++ lit lo)
                      | [] => None
                      end
                  end
            end
      end
  end.

Fixpoint take_digits (x : bytes) : bytes * bytes :=
  match x with
  | c :: x' => if is_digit c then let '(d, r) := take_digits x' in (c :: d, r) else ([], x)
  | [] => ([], [])
  end.
Definition digits_val (d : bytes) : nat :=
  fold_left (fun n c => (n * 10 + (nat_of_ascii c - 48))%nat) d 0%nat.

(** After an opening brace: m}, m,} or m,n}.  Otherwise the brace is a literal. *)
Definition rep_bounds (x : bytes) : option (nat * option nat * bytes) :=
  let '(d, r) := take_digits x in
  match d with
  | [] => None
  | _ =>
      match r with
      | c :: r' =>
          if Ascii.eqb c "}" then Some (digits_val d, Some (digits_val d), r')
          else if Ascii.eqb c "," then
            let '(d2, r2) := take_digits r' in
            match r2 with
            | e :: r3 =>
                if Ascii.eqb e "}" then
                  match d2 with
                  | [] => Some (digits_val d, None, r3)
                  | _ => if Nat.leb (digits_val d) (digits_val d2)
                         then Some (digits_val d, Some (digits_val d2), r3) else None
                  end
                else None
            | [] => None
            end
          else None
      | [] => None
      end
  end.

Definition lazy_mark (x : bytes) : bool * bytes :=
  match x with
  | c :: x' => if Ascii.eqb c "?" then (false, x') else (true, x)
  | [] => (true, [])
  end.

(** Flags of a (?...) construct: m and s, with an optional minus sign. *)
Fixpoint flags (x : bytes) (on : bool) (fm fs : option bool) : option (tok * bytes) :=
  match x with
  | [] => None
  | c :: x' =>
      if Ascii.eqb c "m" then flags x' on (Some on) fs
      else if Ascii.eqb c "s" then flags x' on fm (Some on)
      else if Ascii.eqb c "-" then (if on then flags x' false fm fs else None)
      else if Ascii.eqb c ":" then Some (KOpenNC fm fs, x')
      else if Ascii.eqb c ")" then Some (KFlags fm fs, x')
      else None
  end.

(** One token. *)
Definition lex1 (x : bytes) : option (tok * bytes) :=
  match x with
  | [] => None
  | c :: x' =>
      if Ascii.eqb c "\" then
        match x' with
        | [] => None
        | d :: x'' =>
            match class_escape d with
            | Some rs => Some (KSet false rs, x'')
            | None =>
                match assert_escape d with
                | Some k => Some (KAssert k, x'')
                | None => match char_escape x' with
                          | Some (e, y) => Some (KSet false (lit e), y)
                          | None => None
                          end
                end
            end
        end
      else if Ascii.eqb c "." then Some (KDot, x')
      else if Ascii.eqb c "^" then Some (KHat, x')
      else if Ascii.eqb c "$" then Some (KDollar, x')
      else if Ascii.eqb c "|" then Some (KBar, x')
      else if Ascii.eqb c ")" then Some (KClose, x')
      else if Ascii.eqb c "(" then
        match x' with
        | d :: x'' => if Ascii.eqb d "?" then flags x'' true None None else Some (KOpen, x')
        | [] => Some (KOpen, x')
        end
      else if Ascii.eqb c "[" then
        match x' with
        | d :: x'' =>
            if Ascii.eqb d "^"
            then match class_items (S (length x'')) true x'' [] with
                 | Some (rs, y) => Some (KSet true rs, y) | None => None end
            else match class_items (S (length x')) true x' [] with
                 | Some (rs, y) => Some (KSet false rs, y) | None => None end
        | [] => None
        end
      else if Ascii.eqb c "*" then let '(g, y) := lazy_mark x' in Some (KRep 0 None g, y)
      else if Ascii.eqb c "+" then let '(g, y) := lazy_mark x' in Some (KRep 1 None g, y)
      else if Ascii.eqb c "?" then let '(g, y) := lazy_mark x' in Some (KRep 0 (Some 1%nat) g, y)
      else if Ascii.eqb c "{" then
        match rep_bounds x' with
        | Some (mn, mx, y) => let '(g, z) := lazy_mark y in Some (KRep mn mx g, z)
        | None => Some (KSet false (lit c), x')
        end
      else Some (KSet false (lit c), x')
  end.

Fixpoint lex (fuel : nat) (x : bytes) : option (list tok) :=
  match x with
  | [] => Some []
  | _ =>
      match fuel with
      | O => None
      | S f => match lex1 x with
               | None => None
               | Some (t, y) => match lex f y with Some ts => Some (t :: ts) | None => None end
               end
      end
  end.

(** * Parsing: a stack machine over tokens *)
Record frame := mkF { f_alts : option re; f_cur : list re; f_grp : option nat; f_m : bool; f_s : bool }.
Record pstate := mkP { p_cur : frame; p_stk : list frame; p_next : nat; p_rep : bool }.

Definition cat_rev (l : list re) : re := fold_left (fun acc r => RCat r acc) l REps.
Definition alt_join (o : option re) (r : re) : re :=
  match o with None => r | Some a => RAlt a r end.
Definition frame_re (f : frame) : re := alt_join (f_alts f) (cat_rev (f_cur f)).

Fixpoint rcat_n (n : nat) (r tail : re) : re :=
  match n with O => tail | S n' => RCat r (rcat_n n' r tail) end.
Fixpoint ropt_n (n : nat) (g : bool) (r : re) : re :=
  match n with O => REps | S n' => ROpt g (RCat r (ropt_n n' g r)) end.
Definition rep_re (mn : nat) (mx : option nat) (g : bool) (r : re) : re :=
  match mx with
  | None => rcat_n mn r (RStar g r)
  | Some n => rcat_n mn r (ropt_n (n - mn) g r)
  end.

Definition push (r : re) (s : pstate) : pstate :=
  let f := p_cur s in
  mkP (mkF (f_alts f) (r :: f_cur f) (f_grp f) (f_m f) (f_s f)) (p_stk s) (p_next s) false.

Definition flag (o : option bool) (d : bool) : bool := match o with Some b => b | None => d end.

Definition pstep (t : tok) (s : pstate) : option pstate :=
  let f := p_cur s in
  match t with
  | KSet neg rs => Some (push (RSet neg rs) s)
  | KDot => Some (push (RSet true (if f_s f then [] else lit nl)) s)
  | KHat => Some (push (RAssert (if f_m f then ABegLine else ABegText)) s)
  | KDollar => Some (push (RAssert (if f_m f then AEndLine else AEndText)) s)
  | KAssert k => Some (push (RAssert k) s)
  | KOpen => Some (mkP (mkF None [] (Some (p_next s)) (f_m f) (f_s f)) (f :: p_stk s) (S (p_next s)) false)
  | KOpenNC fm fs =>
      Some (mkP (mkF None [] None (flag fm (f_m f)) (flag fs (f_s f))) (f :: p_stk s) (p_next s) false)
  | KFlags fm fs =>
      Some (mkP (mkF (f_alts f) (f_cur f) (f_grp f) (flag fm (f_m f)) (flag fs (f_s f)))
                (p_stk s) (p_next s) false)
  | KClose =>
      match p_stk s with
      | [] => None
      | up :: stk =>
          let r := frame_re f in
          Some (push (match f_grp f with Some n => RGroup n r | None => r end)
                     (mkP up stk (p_next s) false))
      end
  | KBar =>
      Some (mkP (mkF (Some (frame_re f)) [] (f_grp f) (f_m f) (f_s f)) (p_stk s) (p_next s) false)
  | KRep mn mx g =>
      if p_rep s then None
      else match f_cur f with
           | [] => None
           | r :: l => Some (mkP (mkF (f_alts f) (rep_re mn mx g r :: l) (f_grp f) (f_m f) (f_s f))
                                 (p_stk s) (p_next s) true)
           end
  end.

Fixpoint prun (ts : list tok) (s : pstate) : option pstate :=
  match ts with
  | [] => Some s
  | t :: ts' => match pstep t s with Some s' => prun ts' s' | None => None end
  end.

Definition pinit : pstate := mkP (mkF None [] None false false) [] 1 false.

(** The parsed expression and its number of groups. *)
Definition parse_re (x : bytes) : option (re * nat) :=
  match lex (length x) x with
  | None => None
  | Some ts =>
      match prun ts pinit with
      | Some s => match p_stk s with
                  | [] => Some (frame_re (p_cur s), pred (p_next s))
                  | _ => None
                  end
      | None => None
      end
  end.

Definition group_locs (n : nat) (caps : list (nat * (Z * Z))) : list (Z * Z) :=
  map (fun i => match cap_get i caps with Some g => g | None => (-1, -1) end) (seq 1 n).

Definition regex_engine : engine := {|
  re_valid x := match parse_re x with Some _ => true | None => false end;
  re_groups x := match parse_re x with Some (_, n) => n | None => 0%nat end;
  re_find x t :=
    match parse_re x with
    | None => None
    | Some (r, n) =>
        match search r 0 None t with
        | None => None
        | Some (a, st) => Some ((a, mpos st) :: group_locs n (mcaps st))
        end
    end;
  re_lit_ok _ := true
|}.
