(** Equal trees and places in trees, apart from how they are compared. *)
From Verif Require Import Base Scanner Syntax NodeCheck.

(** Trees that are equal but for ASTs attached to nodes, which are compared by [deep]. *)
Inductive same_extra (deep : branch -> branch -> bool) : extra -> extra -> Prop :=
| se_plain x : (forall b, x <> XBranch b) -> same_extra deep x x
| se_ast a b : deep a b = true -> same_extra deep (XBranch a) (XBranch b).
Inductive same_tree (deep : branch -> branch -> bool) : tree -> tree -> Prop :=
| st_node t x y cs ds : same_extra deep x y -> Forall2 (same_tree deep) cs ds -> same_tree deep (Node t x cs) (Node t y ds)
| st_leaf s : same_tree deep (Leaf s) (Leaf s)
| st_empty : same_tree deep Empty Empty.

(** Trees without the mark for a separator that is not there. *)
Inductive no_empty : tree -> Prop :=
| ne_node t x cs : Forall no_empty cs -> no_empty (Node t x cs)
| ne_leaf s : no_empty (Leaf s).

(** Trees without attached ASTs. *)
Inductive no_ast : tree -> Prop :=
| na_node t x cs : (forall b, x <> XBranch b) -> Forall no_ast cs -> no_ast (Node t x cs)
| na_leaf s : no_ast (Leaf s)
| na_empty : no_ast Empty.

(** The subtree that a path of indices leads to. *)
Inductive leads : tree -> list nat -> tree -> Prop :=
| leads_here v : leads v [] v
| leads_down t x cs i c p v : nth_error cs i = Some c -> leads c p v -> leads (Node t x cs) (i :: p) v.

(** Two nodes that lie at the same place of two trees, with the tags on the way to the first: the path names the tag of each node entered and its index. *)
Inductive across : tree -> tree -> list (string * nat) -> tree -> tree -> Prop :=
| across_here v u : across v u [] v u
| across_down t x cs t' x' cs' i tc xc cc tc' xc' cc' p v u :
    nth_error cs i = Some (Node tc xc cc) -> nth_error cs' i = Some (Node tc' xc' cc') -> across (Node tc xc cc) (Node tc' xc' cc') p v u ->
    across (Node t x cs) (Node t' x' cs') ((tc, i) :: p) v u.

(** What kind of tree something is. *)
Inductive same_kind : tree -> tree -> Prop :=
| sk_node t x cs t' x' cs' : same_kind (Node t x cs) (Node t' x' cs')
| sk_leaf s s' : same_kind (Leaf s) (Leaf s')
| sk_empty : same_kind Empty Empty.

(** A complaint that is right for two trees. *)
Inductive rightly (deep : branch -> branch -> bool) (v u : tree) : complaint -> Prop :=
| r_tag p t x cs t' x' cs' : leads v p (Node t x cs) -> leads u p (Node t' x' cs') -> t <> t' -> rightly deep v u (CTag p t t')
| r_extra p t x cs t' x' cs' : leads v p (Node t x cs) -> leads u p (Node t' x' cs') -> ~ same_extra deep x x' -> rightly deep v u (CExtra p x x')
| r_length p t x cs t' x' cs' : leads v p (Node t x cs) -> leads u p (Node t' x' cs') -> length cs <> length cs' -> rightly deep v u (CLength (length cs) (length cs'))
| r_type p a b : leads v p a -> leads u p b -> ~ same_kind a b -> rightly deep v u (CType p a b)
| r_leaf p s s' : leads v p (Leaf s) -> leads u p (Leaf s') -> s <> s' -> rightly deep v u (CLeaf p s s')
| r_unexpected p : leads v p Empty -> leads u p Empty -> rightly deep v u (CUnexpected Empty Empty)
| r_missing p a : leads v p a -> (forall b, ~ leads u p b) -> rightly deep v u (CMissing p a)
| r_surplus p b : leads u p b -> (forall a, ~ leads v p a) -> rightly deep v u (CSurplus p b).
(** A message that is right for two trees. *)
Inductive truly (v u : tree) : message -> Prop :=
| t_tag p t x cs t' x' cs' : across v u p (Node t x cs) (Node t' x' cs') -> t <> t' -> truly v u (p, DTag t t')
| t_extra p t x cs t' x' cs' : across v u p (Node t x cs) (Node t' x' cs') -> x <> x' -> truly v u (p, DExtra x x')
| t_count p t x cs t' x' cs' : across v u p (Node t x cs) (Node t' x' cs') -> length cs <> length cs' -> truly v u (p, DCount (length cs) (length cs')).
