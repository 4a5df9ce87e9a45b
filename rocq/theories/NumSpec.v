(** Numbers and directions as grammar texts write them. *)
From Verif Require Import Base Scanner Syntax.

(** A decimal numeral and its value. *)
Inductive digit_value : ascii -> nat -> Prop :=
| digit_intro c v : nat_of_ascii c = 48 + v -> v < 10 -> digit_value c v.
Inductive numeral : bytes -> nat -> Prop :=
| numeral_one c v : digit_value c v -> numeral [c] v
| numeral_more ds k c v : numeral ds k -> digit_value c v -> numeral (ds ++ [c]) (10 * k + v).
(** The numbers that are ints in Go. *)
Definition is_int (k : nat) : Prop := (Z.of_nat k < 2 ^ 63)%Z.

(** The direction that an operator with a separator asks for. *)
Inductive direction : string -> assoc -> Prop :=
| to_neither : direction ":" NonAssociative
| to_right : direction ":>" LeftToRight
| to_left : direction "<:" RightToLeft.
