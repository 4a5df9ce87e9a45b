(** What DropCaps does to a name, position by position. *)
From Verif Require Import Base.

Definition capitals : bytes := bs "ABCDEFGHIJKLMNOPQRSTUVWXYZ".
Definition small_letters : bytes := bs "abcdefghijklmnopqrstuvwxyz".
Definition capital (c : ascii) : Prop := In c capitals.
(** The small letter of a capital. *)
Definition small (c d : ascii) : Prop := exists i, nth_error capitals i = Some c /\ nth_error small_letters i = Some d.

(** A capital directly after a capital. *)
Definition crowded (s : bytes) (i : nat) : Prop :=
  exists j a b, i = S j /\ nth_error s j = Some a /\ capital a /\ nth_error s i = Some b /\ capital b.
(** [t] is [s] with the crowded capitals made small. *)
Definition eased (s t : bytes) : Prop :=
  length t = length s /\ forall i c d, nth_error s i = Some c -> nth_error t i = Some d -> (crowded s i -> small c d) /\ (~ crowded s i -> d = c).
Definition ascii_only (s : bytes) : Prop := Forall (fun c => nat_of_ascii c < 128) s.
