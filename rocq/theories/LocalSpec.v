(** Vocabulary for single constructs: runs of a repetition body, delimited lists, values
    bound to back references. *)
From Verif Require Import Base Scanner ScannerSpec Syntax Engine Compile Parse PegSpec DerivSpec.
Local Open Scope Z_scope.

(** The body [run] succeeds as often as [vs] is long, one run after the other. *)
Inductive runs (run : scanner -> nat -> out) : scanner -> nat -> list tree -> scanner -> nat -> Prop :=
| runs_nil : forall s k, runs run s k [] s k
| runs_cons : forall s k v s1 k1 vs s' k', run s k = (ROk v, s1, k1) -> runs run s1 k1 vs s' k' ->
    runs run s k (v :: vs) s' k'.

(** sep item sep item ... from one scanner to the other. *)
Inductive alternating (E : engine) (gs : grammars) (t sep : term) : scanner -> list tree -> scanner -> Prop :=
| alt_nil : forall s, alternating E gs t sep s [] s
| alt_more : forall s vs1 x s1 vs2 v s2 l s',
    derives E gs vs1 "" sep s x s1 -> derives E gs vs2 "" t s1 v s2 ->
    alternating E gs t sep s2 l s' -> alternating E gs t sep s (x :: v :: l) s'.

(** An optional separator at the edge: absent, or present when allowed and then accompanied
    by [Empty] on the outside. *)
Inductive edge (E : engine) (gs : grammars) (sep : term) (allowed lead : bool) : scanner -> list tree -> scanner -> Prop :=
| edge_none : forall s, edge E gs sep allowed lead s [] s
| edge_sep : forall s vs x s', allowed = true -> derives E gs vs "" sep s x s' ->
    edge E gs sep allowed lead s (if lead then [Empty; x] else [x; Empty]) s'.

(** The items and separators of a list, left to right. *)
Definition listing (E : engine) (gs : grammars) (t sep : term) (cs ce : bool)
  (s : scanner) (items : list tree) (s' : scanner) : Prop :=
  exists s1 s2 s3 lead vs first more trail,
    items = lead ++ first :: more ++ trail /\
    edge E gs sep cs true s lead s1 /\ derives E gs vs "" t s1 first s2 /\
    alternating E gs t sep s2 more s3 /\ edge E gs sep ce false s3 trail s'.

(** A value made of nodes and leaves; its text; are its leaf texts matched literally. *)
Inductive bound_value : tree -> bytes -> Prop :=
| bv_leaf : forall s x, shows s x -> bound_value (Leaf s) x
| bv_node : forall tag ex cs xs, Forall2 bound_value cs xs -> bound_value (Node tag ex cs) (concat xs).

Definition literal_leaves (E : engine) (v : tree) : Prop :=
  forall s x, In s (leaves v) -> shows s x -> re_lit_ok E x = true.
