(** Model of wbnf/recursion.go: the rule graph, the search for cycles in it and the
    sets of rules that a production may start with ("danger" terms).

    Go slices are modelled with their backing arrays, because [findPaths] appends to slices that
    share an array.  A heap is the list of the arrays allocated so far; a slice is an array index,
    a length and a capacity.  How [append] grows an array is a parameter [grow], and so is the
    order in which Go iterates over a map ([ord]). *)
From Verif Require Import Base.

(** * Slices of strings *)

Record slice := mkSlice { s_arr : nat; s_len : nat; s_cap : nat }.
(** The nil slice: no array is reachable through it. *)
Definition nil_slice : slice := mkSlice 0 0 0.
Definition heap := list (list string).

(** Writing one cell of an array. *)
Fixpoint set_nth {A} (i : nat) (x : A) (l : list A) : list A :=
  match l, i with
  | [], _ => []
  | _ :: l', O => x :: l'
  | y :: l', S i' => y :: set_nth i' x l'
  end.
Definition cells (h : heap) (a : nat) : list string := nth a h [].
(** The strings a slice shows. *)
Definition read (h : heap) (s : slice) : list string := firstn (s_len s) (cells h (s_arr s)).

(** Go's [append(s, x)]: in place when the capacity allows it, else into a new array of
    [grow (cap s)] cells. *)
Definition append1 (grow : nat -> nat) (h : heap) (s : slice) (x : string) : slice * heap :=
  if Nat.ltb (s_len s) (s_cap s)
  then (mkSlice (s_arr s) (S (s_len s)) (s_cap s),
        set_nth (s_arr s) (set_nth (s_len s) x (cells h (s_arr s))) h)
  else let c := grow (s_cap s) in
       (mkSlice (length h) (S (s_len s)) c,
        h ++ [(read h s ++ [x]) ++ repeat ""%string (c - S (s_len s))]).

(** * Sets of strings *)

(** [frozen.Set[string]]: a list; [With], [Without], [Union]. *)
Definition mem (x : string) (s : list string) : bool := existsb (String.eqb x) s.
Definition with_ (x : string) (s : list string) : list string := if mem x s then s else s ++ [x].
Definition without (x : string) (s : list string) : list string := filter (fun y => negb (String.eqb x y)) s.
Definition union (a b : list string) : list string := fold_left (fun s x => with_ x s) b a.
(** [frozen.NewSet(p...).Count()]. *)
Definition set_count (p : list string) : nat := length (union [] p).

(** recursion.go:77-83 [sortedSet]. *)
Fixpoint insert (x : string) (l : list string) : list string :=
  match l with
  | [] => [x]
  | y :: l' => if String.leb x y then x :: l else y :: insert x l'
  end.
Definition sorted_set (s : list string) : list string := fold_right insert [] s.

(** * The rule graph *)

(** recursion.go:85-87 [gnode].  There is one node per rule name, so a node is its name and the
    graph maps a name to the names its node points to; the root node points to every name in
    the graph.  recursion.go:89-103 [walkRule]: [None] is out of fuel. *)
Definition graph := list (string * list string).
Definition add_next (start target : string) (g : graph) : graph :=
  aset start (match lookup start g with Some l => with_ target l | None => [target] end) g.
Fixpoint walk_rule (fuel : nat) (dangers : graph) (start : string) (g : graph) {struct fuel} : option graph :=
  match fuel with
  | O => None
  | S fuel =>
      if has start g then Some g
      else fold_left
             (fun acc target =>
                match acc with
                | None => None
                | Some g =>
                    match (if has target g then Some g else walk_rule fuel dangers target g) with
                    | Some g => Some (add_next start target g)
                    | None => None
                    end
                end)
             (sorted_set (match lookup start dangers with Some s => s | None => [] end))
             (Some (aset start [] g))
  end.

(** recursion.go:36-40: a walk from every rule, in the order [ks] of the map. *)
Definition walk_rules (fuel : nat) (dangers : graph) (ks : list string) : option graph :=
  fold_left (fun acc k => match acc with Some g => walk_rule fuel dangers k g | None => None end) ks (Some []).

(** * Paths *)

Section FindPaths.
  (** The growth of slices, and the order in which the map of the node reached along a path is
      iterated. *)
  Variables (grow : nat -> nat) (ord : list string -> list string -> list string) (g : graph).

  (** The keys of the map [node.next]: of the root, and of the node of a name. *)
  Definition next (path : list string) : list string :=
    match rev path with
    | [] => keys g
    | name :: _ => match lookup name g with Some l => l | None => [] end
    end.

  Section Loop.
    Variable find_paths : list string -> list string -> slice -> heap -> option (list slice * heap).
    (** recursion.go:66-72: the loop over [node.next]. *)
    Fixpoint paths_loop (path seen : list string) (current : slice) (ks : list string)
             (possibles : list slice) (h : heap) : option (list slice * heap) :=
      match ks with
      | [] => Some (possibles, h)
      | k :: ks' =>
          if mem k seen
          then let (p, h') := append1 grow h current k in
               paths_loop path seen current ks' (possibles ++ [p]) h'
          else match find_paths (path ++ [k]) (with_ k seen) current h with
               | Some (ps, h') => paths_loop path seen current ks' (possibles ++ ps) h'
               | None => None
               end
      end.
  End Loop.

  (** recursion.go:61-75 [findPaths].  [path] is the list of names from the root to this node: its
      last element is the parameter [name] (the empty path is the call with the empty name).
      A name may also be the empty string, which is not appended.  [None] is out of fuel. *)
  Fixpoint find_paths (fuel : nat) (path seen : list string) (current : slice) (h : heap) {struct fuel}
    : option (list slice * heap) :=
    match fuel with
    | O => None
    | S fuel =>
        let name := last path ""%string in
        let (current, h) := if String.eqb name "" then (current, h) else append1 grow h current name in
        paths_loop (find_paths fuel) path seen current (ord path (next path)) [] h
    end.

  (** recursion.go:44-57: some path found shows a name twice. *)
  Definition bad_route (h : heap) (p : slice) : bool := negb (Nat.eqb (s_len p) (set_count (read h p))).
  Definition search (fuel : nat) : option bool :=
    match find_paths fuel [] [] nil_slice [] with
    | Some (ps, h) => Some (existsb (bad_route h) ps)
    | None => None
    end.
End FindPaths.

(** recursion.go:36-58: whether the sets of danger terms give an error.  [ks] is the order of the
    map of dangers. *)
Definition graph_names (dangers : graph) : list string := keys dangers ++ concat (map snd dangers).
Definition graph_fuel (dangers : graph) : nat := S (S (length (graph_names dangers))).
Definition has_cycle (grow : nat -> nat) (ord : list string -> list string -> list string)
           (ks : list string) (dangers : graph) : option bool :=
  match walk_rules (graph_fuel dangers) dangers ks with
  | Some g => search grow ord g (graph_fuel dangers)
  | None => None
  end.
(** The growth of small slices in the Go runtime (runtime/slice.go, up to 256 elements): double. *)
Definition doubling (c : nat) : nat := if Nat.eqb c 0 then 1 else c + c.
