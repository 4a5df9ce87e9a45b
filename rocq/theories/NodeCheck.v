(** Model of the comparison of parse trees for tests (parser/testutil.go) and of the report of [NodeDiff] (parser/diff/nodes.go:18-47).
    Messages are kept as values: where they point and what they are about. *)
From Verif Require Import Base Scanner Syntax Diff.

(** testutil.go:23-51: what is reported to the test; [CLength] comes without a path. *)
Inductive complaint :=
| CTag (path : list nat) (x y : string)
| CExtra (path : list nat) (x y : extra)
| CLength (n m : nat)
| CType (path : list nat) (x y : tree)
| CLeaf (path : list nat) (x y : scanner)
| CUnexpected (x y : tree)
| CMissing (path : list nat) (x : tree)
| CSurplus (path : list nat) (x : tree).

Section Check.
  (** [reflect.DeepEqual] on the ASTs attached to nodes. *)
  Variable deep : branch -> branch -> bool.

  (** [assert.Equal] of two scanners, extras: [reflect.DeepEqual]. *)
  Definition deep_scanner (x y : scanner) : bool := osource_eqb (src x) (src y) && Z.eqb (start x) (start y) && Z.eqb (slen x) (slen y).
  Definition deep_extra (x y : extra) : bool :=
    match x, y with
    | XNone, XNone => true
    | XChoice a, XChoice b => Nat.eqb a b
    | XAssoc a, XAssoc b => assoc_eqb a b
    | XBranch a, XBranch b => deep a b
    | _, _ => false
    end.
  (** One assertion: its result and what it reports. *)
  Definition holds (ok : bool) (c : complaint) : bool * list complaint := (ok, if ok then [] else [c]).
  (** [result = result && ok], after what was reported before. *)
  Definition also (x y : bool * list complaint) : bool * list complaint := (fst x && fst y, snd x ++ snd y).
  (** testutil.go:44-49: the children that one of the nodes has beyond those of the other. *)
  Fixpoint beyond (c : list nat -> tree -> complaint) (path : list nat) (i : nat) (cs : list tree) : list complaint :=
    match cs with [] => [] | x :: cs' => c (path ++ [i]) x :: beyond c path (S i) cs' end.

  (** testutil.go:17-53 [assertEqualNodes], for two nodes; else nothing is to be compared. *)
  Fixpoint assert_nodes (v u : tree) (path : list nat) {struct v} : bool * list complaint :=
    match v, u with
    | Node t x cs, Node t' x' cs' =>
        also (holds (String.eqb t t') (CTag path t t'))
        (also (holds (deep_extra x x') (CExtra path x x'))
        (also (holds (Nat.eqb (length cs) (length cs')) (CLength (length cs) (length cs')))
         ((fix go (i : nat) (xs ys : list tree) {struct xs} : bool * list complaint :=
             match xs, ys with
             | a :: xs', b :: ys' =>
                 also (match a, b with
                       | Node _ _ _, Node _ _ _ => assert_nodes a b (path ++ [i])
                       | Leaf s, Leaf s' => holds (deep_scanner s s') (CLeaf (path ++ [i]) s s')
                       | Empty, Empty => (false, [CUnexpected a b])
                       | _, _ => (false, [CType (path ++ [i]) a b])
                       end) (go (S i) xs' ys')
             | [], ys => (true, beyond CSurplus path i ys)
             | xs, [] => (true, beyond CMissing path i xs)
             end) 0 cs cs')))
    | _, _ => (true, [])
    end.
  (** testutil.go:9-15 [AssertEqualNodes]. *)
  Definition assert_equal_nodes (v u : tree) : bool := fst (assert_nodes v u []).
End Check.

(** nodes.go:33-41: one message: the path and what differs. *)
Inductive differs := DTag (x y : string) | DExtra (x y : extra) | DCount (n m : nat).
Definition message : Type := list (string * nat) * differs.

Section Report.
  (** The order in which a map with indices as keys is run through. *)
  Variable order : forall A, list (nat * A) -> list (nat * A).

  Definition ndiff_tag (d : ndiff) : string := let 'NDiff (t, _, _) _ _ := d in t.
  (** The messages of the parts one after the other; None is a panic. *)
  Fixpoint gather (l : list (nat * option (list message))) : option (list message) :=
    match l with
    | [] => Some []
    | (_, None) :: _ => None
    | (_, Some x) :: l' => match gather l' with Some y => Some (x ++ y) | None => None end
    end.
  (** nodes.go:25-47 [report]; the map [Types] is empty. *)
  Fixpoint report (path : list (string * nat)) (d : ndiff) {struct d} : option (list message) :=
    let 'NDiff (t, x, cs) (t', x', cs') ds := d in
    match ndiff_equal d with
    | None => None
    | Some true => Some []
    | Some false =>
        match extra_eqb x x' with
        | None => None
        | Some same =>
            match gather (order _ (map (fun '(i, d') => (i, report (path ++ [(ndiff_tag d', i)]) d')) ds)) with
            | None => None
            | Some rest =>
                Some ((if String.eqb t t' then [] else [(path, DTag t t')]) ++ (if same then [] else [(path, DExtra x x')]) ++
                      (if Nat.eqb (length cs) (length cs') then [] else [(path, DCount (length cs) (length cs'))]) ++ rest)
            end
        end
    end.
End Report.
