(** Properties C39, C40 and C48: reading string and regexp literals. *)
From Verif Require Import Base Regex StrLit StrLitSpec StrLitProofs.
Local Open Scope char_scope.

(** C39: every byte string can be written with any of the three quotes and read back. *)
Theorem C39_back_quotes : forall x, parse_string (written_raw x) = Some x.
Proof. exact raw_roundtrip. Qed.
Print Assumptions C39_back_quotes.

Theorem C39_quotes : forall q x, q = """" \/ q = "'" -> parse_string (written_quoted q x) = Some x.
Proof. exact quoted_roundtrip. Qed.
Print Assumptions C39_quotes.

Example C39_written :
  written_raw (bs "a`b\") = bs "`a``b\`" /\ written_quoted """" (bs "a""b\'") = bs """a\""b\\'""" /\
  parse_string (bs """a\""b\\'""") = Some (bs "a""b\'") /\ parse_string (bs "`a``b\`") = Some (bs "a`b\").
Proof. repeat split; reflexivity. Qed.

(** The text between quotes is read exactly as described by [stands_for]; anything it does not
    cover is a panic. *)
Theorem C39_meaning : forall q body e x, q <> "`" ->
  (parse_string (q :: body ++ [e]) = Some x <-> stands_for q body x).
Proof. exact parse_quoted_iff. Qed.
Print Assumptions C39_meaning.

Example C39_meaning_example :
  parse_string (bs """\tx\n\\""") = Some [tab; "x"; nl; "\"] /\
  stands_for """" (bs "\tx\n\\") [tab; "x"; nl; "\"] /\
  parse_string (bs "'\d'") = None /\ parse_string (bs "'\""'") = None.
Proof.
  repeat split; try reflexivity.
  apply (sf_letter _ _ 9%nat); [simpl; tauto|]. apply sf_plain; [discriminate|].
  apply (sf_letter _ _ 10%nat); [simpl; tauto|]. apply (sf_letter _ _ 92%nat); [simpl; tauto|]. constructor.
Qed.

(** C40: numeric escapes do not denote the named character ... *)
Theorem C40_numeric_refuted : exists hex oct,
  hex = bs """\x41""" /\ parse_string hex <> Some (bs "A") /\
  oct = bs """\101""" /\ parse_string oct <> Some (bs "A").
Proof. exists (bs """\x41"""), (bs """\101"""). repeat split; discriminate. Qed.
Print Assumptions C40_numeric_refuted.

(** ... hexadecimal ones always panic ... *)
Theorem C40_hex_panics : forall q e body last, In e ["x"; "u"; "U"] -> q <> "`" ->
  parse_string (q :: ("\" :: e :: body) ++ [last]) = None.
Proof. intros q e body last H Q. exact (hex_panics q e body H Q last). Qed.
Print Assumptions C40_hex_panics.

Example C40_hex_example : parse_string (bs """\x41""") = None /\ parse_string (bs ("""" ++ "\" ++ "u0041"""))%string = None /\
  parse_string (bs """\U00000041""") = None.
Proof. repeat split; reflexivity. Qed.

(** ... and three octal digits give their byte followed by the last digit, or a panic. *)
Theorem C40_octal_digit_left : forall q a b c va vb vc body last, q <> "`" -> octal a va -> octal b vb -> octal c vc ->
  parse_string (q :: ("\" :: a :: b :: c :: body) ++ [last]) =
  if (64 * va + 8 * vb + vc <? 128)%nat
  then option_map (fun x => ascii_of_nat (64 * va + 8 * vb + vc) :: c :: x) (parse_string (q :: body ++ [last]))
  else None.
Proof. exact octal_escape. Qed.
Print Assumptions C40_octal_digit_left.

Example C40_octal_example : octal "1" 1 /\ octal "0" 0 /\ parse_string (bs """\101""") = Some (bs "A1") /\
  parse_string (bs """\200""") = None.
Proof. unfold octal. repeat split; try reflexivity; vm_compute; lia. Qed.

(** C48: a regexp literal between /{ and } means its text without white space, with every
    escaped underscore turned into a space - however many of them are adjacent, and leaving
    underscores after an escaped backslash alone. *)
Theorem C48_braced_regexp : forall x y ps, unblanked x y -> proper ps -> ~ In Last ps ->
  y = bs "/{" ++ pieces_text ps ++ bs "}" ->
  parse_regexp x = Some (pieces_text (map spaced ps)).
Proof. exact regexp_braced_unblanked. Qed.
Print Assumptions C48_braced_regexp.

Theorem C48_bare_regexp : forall x y ps, unblanked x y -> proper ps -> y = pieces_text ps ->
  (forall r, pieces_text (map spaced ps) <> "/" :: "{" :: r) ->
  parse_regexp x = Some (pieces_text (map spaced ps)).
Proof. exact regexp_bare_unblanked. Qed.
Print Assumptions C48_bare_regexp.

(** Every text has such a reading. *)
Theorem C48_every_text : forall x, exists y ps, unblanked x y /\ proper ps /\ pieces_text ps = y.
Proof. exact regexp_readings. Qed.
Print Assumptions C48_every_text.

Example C48_example :
  parse_regexp (bs "/{ a \_\_\_\_\_ \\_ | [_] }") = Some (bs "a     \\_|[_]") /\
  unspace (bs "a\_\_\_\_\_") = bs "a \_ \_ " /\
  parse_regexp (bs "\d\_\_\_") = Some (bs "\d   ") /\
  proper [Plain "a"; Pair "_"; Pair "_"; Pair "\"; Plain "_"].
Proof. repeat split; try reflexivity; discriminate. Qed.
