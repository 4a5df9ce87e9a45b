(** What callers of [Parse] see. *)
From Verif Require Import Base Scanner ScannerSpec Syntax Engine Compile Parse PegSpec.
Local Open Scope Z_scope.

(** Externals that do not report unconsumed input themselves. *)
Definition no_leftovers (c : config) : Prop :=
  forall s fn sc i residue te, lookup s (cf_ext c) = Some fn -> snd (fn sc i) <> XErr (EUnconsumed residue te).

(** The rule matches a first part of the input with tree [v], leaving [s']. *)
Definition matches (c : config) (f : nat) (ps : parsers) (r : string) (s : scanner) (v : tree) (s' : scanner) : Prop :=
  exists p k, lookup r (p_rules ps) = Some p /\ parse c f [p_rules ps] p empty_scope s 0 = (ROk v, s', k).

(** A plain [Parse] call with the given random numbers. *)
Definition plain_call (E : engine) (rnd : nat -> Z) : config := mkConfig E [] None rnd.
