(** What a tree view shows of an AST. *)
From Verif Require Import Base Scanner Syntax Resolve AstSpec Gotree.

(** The texts of the items that have no items, from top to bottom. *)
Fixpoint tips (t : gtree) : list bytes :=
  match t with
  | GTree x [] => [x]
  | GTree _ ts => flat_map tips ts
  end.

(** The label of a leaf: its offset in decimal, a mark and its text, quoted if it has a control
    character or one of [:,'`(){}[]], in back quotes if it has a double quote otherwise. *)
Definition odd_char (c : ascii) : Prop := nat_of_ascii c < 32 \/ nat_of_ascii c = 127 \/ In c (bs ":,'`(){}[]").
Inductive label (quote : bytes -> bytes) (s : scanner) : bytes -> Prop :=
| lb_odd : forall n x c, offset s = Z.of_nat n -> sstring s = Some x -> In c x -> odd_char c ->
    label quote s (bs (dec n) ++ bs "‣" ++ quote x)
| lb_quote : forall n x, offset s = Z.of_nat n -> sstring s = Some x -> (forall c, In c x -> ~ odd_char c) ->
    In """"%char x -> label quote s (bs (dec n) ++ bs "‣" ++ bs "`" ++ x ++ bs "`")
| lb_plain : forall n x, offset s = Z.of_nat n -> sstring s = Some x -> (forall c, In c x -> ~ odd_char c) ->
    ~ In """"%char x -> label quote s (bs (dec n) ++ bs "‣" ++ x).

Section Ends.
  Variables (quote : bytes -> bytes) (extra : adata -> bytes) (skip : bool).

  (** Names that the view leaves out. *)
  Definition hidden (k : string) : Prop := skip = true /\ exists r, k = String "@" r.
  (** Children without nodes. *)
  Definition no_nodes (c : children anode) : Prop := c = Many [].

  (** [ends k n l]: [l] lists the labels of the leaves shown below the node [n] called [k], the
      data, and the names of the branches that show nothing. *)
  Inductive ends : string -> anode -> list bytes -> Prop :=
  | en_leaf : forall k s x, label quote s x -> ends k (ALeaf s) [x]
  | en_extra : forall k d, ends k (AExtra d) [extra d]
  | en_hollow : forall k b, (forall k' c, In (k', c) b -> hidden k' \/ no_nodes c) -> ends k (ABranch b) [bs k]
  | en_branch : forall k b k' c ls, In (k', c) b -> ~ hidden k' -> ~ no_nodes c -> Forall2 ends_kids b ls ->
      ends k (ABranch b) (concat ls)
  with ends_kids : string * children anode -> list bytes -> Prop :=
  | ek_hidden : forall k c, hidden k -> ends_kids (k, c) []
  | ek_one : forall k n l, ~ hidden k -> ends k n l -> ends_kids (k, One n) l
  | ek_many : forall k ns ls, ~ hidden k -> Forall2 (ends k) ns ls -> ends_kids (k, Many ns) (concat ls).
End Ends.

(** No leaf below the node. *)
Definition leafless (n : anode) : Prop := forall l, reads n l -> l = [].

(** An AST whose view is settled: names do not start with a digit from 1 to 9, there is something
    to show in every branch, and the names with "@", which are not shown, have no leaves. *)
Definition number_name (k : string) : Prop := exists c r, k = String c r /\ In c (bs "123456789").
Definition at_name (k : string) : Prop := exists r, k = String "@" r.
Definition nodes (c : children anode) : list anode := match c with One n => [n] | Many ns => ns end.
Inductive settled : anode -> Prop :=
| se_leaf : forall s, settled (ALeaf s)
| se_branch : forall b,
    (exists k c, In (k, c) b /\ ~ at_name k /\ nodes c <> []) ->
    (forall k c n, In (k, c) b -> In n (nodes c) -> at_name k -> leafless n) ->
    (forall k c n, In (k, c) b -> In n (nodes c) -> ~ at_name k -> ~ number_name k /\ settled n) ->
    settled (ABranch b).

(** Leaves at strictly increasing offsets. *)
Fixpoint climbing (lo : Z) (l : list scanner) : Prop :=
  match l with
  | [] => True
  | s :: l' => (lo <= offset s)%Z /\ climbing (offset s + 1) l'
  end.

(** What map iteration and [sort.Slice] may do. *)
Definition any_order (ord : list nat -> list (list gtree) -> list (list gtree)) : Prop := forall p gs, Permutation (ord p gs) gs.
Definition sorts (sorter : list nat -> list (Z * gtree) -> list (Z * gtree)) : Prop := forall p l,
  Permutation (sorter p l) l /\ forall i j a b, i < j -> nth_error (sorter p l) i = Some a -> nth_error (sorter p l) j = Some b -> (fst a <= fst b)%Z.
