(** What literals of the grammar language mean, said without the reading loop. *)
From Verif Require Import Base.
Local Open Scope char_scope.

(** Ways to write a byte string as a literal: between back quotes with every back quote
    doubled; between other quotes with a backslash before every backslash and every quote. *)
Definition written_raw (x : bytes) : bytes :=
  "`" :: flat_map (fun c => if Ascii.eqb c "`" then ["`"; "`"] else [c]) x ++ ["`"].
Definition written_quoted (q : ascii) (x : bytes) : bytes :=
  q :: flat_map (fun c => if Ascii.eqb c "\" || Ascii.eqb c q then ["\"; c] else [c]) x ++ [q].

(** The escapes of one letter. *)
Definition letter_escapes : list (ascii * nat) :=
  [("a", 7); ("b", 8); ("f", 12); ("n", 10); ("r", 13); ("t", 9); ("v", 11); ("\", 92); ("'", 39)]%nat.

(** Octal digits. *)
Definition octal (c : ascii) (v : nat) : Prop := (v < 8)%nat /\ nat_of_ascii c = (48 + v)%nat.

(** [stands_for q body x]: between quotes [q], the text [body] stands for [x].  The octal rule
    is the one the code follows: three digits give a byte below 128, but only two of them are
    used up. *)
Inductive stands_for (q : ascii) : bytes -> bytes -> Prop :=
| sf_end : stands_for q [] []
| sf_plain : forall c body x, c <> "\" -> stands_for q body x -> stands_for q (c :: body) (c :: x)
| sf_letter : forall e v body x, In (e, v) letter_escapes -> stands_for q body x ->
    stands_for q ("\" :: e :: body) (ascii_of_nat v :: x)
| sf_quote : forall body x, (forall v, ~ octal q v) -> ~ In q ["x"; "u"; "U"] -> ~ In q (map fst letter_escapes) ->
    stands_for q body x -> stands_for q ("\" :: q :: body) (q :: x)
| sf_octal : forall a b c va vb vc body x, octal a va -> octal b vb -> octal c vc ->
    (64 * va + 8 * vb + vc < 128)%nat -> stands_for q (c :: body) x ->
    stands_for q ("\" :: a :: b :: c :: body) (ascii_of_nat (64 * va + 8 * vb + vc) :: x).

(** [y] is [x] without its white space: tabs, newlines, form feeds, carriage returns, spaces. *)
Definition blank (c : ascii) : Prop := In (nat_of_ascii c) [9; 10; 12; 13; 32]%nat.
Inductive unblanked : bytes -> bytes -> Prop :=
| ub_end : unblanked [] []
| ub_drop : forall c x y, blank c -> unblanked x y -> unblanked (c :: x) y
| ub_keep : forall c x y, ~ blank c -> unblanked x y -> unblanked (c :: x) (c :: y).

(** A regexp text as characters and backslash pairs: reading left to right, a backslash takes
    the next character with it. *)
Inductive piece := Plain (c : ascii) | Pair (c : ascii) | Last.
Definition piece_text (p : piece) : bytes :=
  match p with Plain c => [c] | Pair c => ["\"; c] | Last => ["\"] end.
Definition pieces_text (ps : list piece) : bytes := flat_map piece_text ps.
(** Plain characters are not backslashes, and a backslash on its own is the last character. *)
Fixpoint proper (ps : list piece) : Prop :=
  match ps with
  | [] => True
  | Plain c :: ps' => c <> "\" /\ proper ps'
  | Pair _ :: ps' => proper ps'
  | Last :: ps' => ps' = []
  end.
(** An escaped underscore means a space. *)
Definition spaced (p : piece) : piece :=
  match p with Pair c => if Ascii.eqb c "_" then Plain " " else p | _ => p end.
