(** What is given to a command, apart from how it reads it. *)
From Verif Require Import Base Front.

(** The text that the flag input names; no name and - stand for the standard input. *)
Inductive given (w : world) (stdin : option bytes) : string -> bytes -> Prop :=
| given_stdin file x : file = ""%string \/ file = "-"%string -> stdin = Some x -> given w stdin file x
| given_file file x : file <> ""%string -> file <> "-"%string -> w_read w file = Some x -> given w stdin file x.
