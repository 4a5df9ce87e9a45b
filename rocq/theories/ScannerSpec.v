(** Specification vocabulary for scanners: a scanner is a half-open byte range of a
    source text.  Independent of the helper functions of the model. *)
From Verif Require Import Base Scanner.
Local Open Scope Z_scope.

(** The scanner is a window [i, i+n) that lies inside a source. *)
Definition window (s : scanner) (o : source) (i n : nat) : Prop :=
  src s = Some o /\ start s = Z.of_nat i /\ slen s = Z.of_nat n /\
  (i + n <= length (origin o))%nat.

Definition in_range (s : scanner) : Prop := exists o i n, window s o i n.

(** [t] is the text of the range [i, i+n) of [b]. *)
Definition range_text (b : bytes) (i n : nat) (t : bytes) : Prop :=
  exists p q, b = p ++ t ++ q /\ length p = i /\ length t = n.

(** [s] shows the text [t]. *)
Definition shows (s : scanner) (t : bytes) : Prop := sstring s = Some t.

(** Line and column of a byte offset in a text: the line number is one more than the
    newlines before it; the column counts from the last newline (or the beginning). *)
Definition is_position (text : bytes) (off : nat) (line col : Z) : Prop :=
  exists before last,
    firstn off text = before ++ last /\ (off <= length text)%nat /\
    ~ In nl last /\
    (before = [] \/ exists b, before = b ++ [nl]) /\
    line = 1 + Z.of_nat (count_occ ascii_dec before nl) /\
    col = 1 + Z.of_nat (length last).

(** Lexicographic order of positions. *)
Definition pos_lt (p q : Z * Z) : Prop :=
  fst p < fst q \/ (fst p = fst q /\ snd p < snd q).

(** [c] covers [s]: same source, range included. *)
Definition covers (c s : scanner) : Prop :=
  src c = src s /\ start c <= start s /\ start s + slen s <= start c + slen c.

(** The shortened text before the highlight: unchanged, or the part after some newline
    that holds exactly [k] newlines. *)
Definition tail_lines (k : Z) (full part : bytes) : Prop :=
  (part = full /\ Z.of_nat (count_occ ascii_dec full nl) <= k) \/
  (exists p, full = p ++ nl :: part) /\ Z.of_nat (count_occ ascii_dec part nl) = k.

(** The shortened text after the highlight: unchanged, empty (no lines wanted), or the
    part before some newline that holds exactly [k]-1 newlines. *)
Definition head_lines (k : Z) (full part : bytes) : Prop :=
  (part = full /\ Z.of_nat (count_occ ascii_dec full nl) < k) \/
  (k = 0 /\ part = []) \/
  (exists q, full = part ++ nl :: q) /\ Z.of_nat (count_occ ascii_dec part nl) = k - 1.
