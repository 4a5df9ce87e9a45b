(** What the theorems about grammar texts assume about the Go runtime. *)
From Verif Require Import Base Recursion Validate Front.
From Coq Require Import Permutation.

(** [append] makes slices longer, and the iteration over a map visits each of its keys once. *)
Definition runtime_ok (rt : runtime) : Prop :=
  (forall n, n < rt_grow rt n) /\
  (forall path l, Permutation (rt_ord rt path l) l) /\
  (forall d, Permutation (rt_keys rt d) (keys d)).

Definition with_runtime (rt : runtime) (w : world) : world :=
  mkWorld (w_engine w) (w_rnd w) rt (w_join w) (w_clean w) (w_read w) (w_resolve w).

(** Every reference goes down: a reason why there is no cycle. *)
Definition descends (d : graph) (rank : string -> nat) : Prop :=
  forall x l y, lookup x d = Some l -> In y l -> rank y < rank x.
