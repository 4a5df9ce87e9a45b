(** Model of gotree/gotree.go: trees of texts, their ranks and their printed form.

    A Go tree is reached through pointers and grown with [Add] and [AddTree]; here it is a finite
    value (no tree is added below itself).  [printItems] appends to slices that share an array,
    so the slices of booleans are modelled with their arrays, as in Recursion.v. *)
From Verif Require Import Base Scanner Ast.

(** gotree.go:11-17: the texts in front of the items (UTF-8). *)
Definition emptySpace : bytes := bs "    ".
Definition middleItem : bytes := bs "├── ".
Definition continueItem : bytes := bs "│   ".
Definition lastItem : bytes := bs "└── ".

(** gotree.go:20-23 [tree]; gotree.go:65-73 [Text], [Items]. *)
Inductive gtree := GTree (text : bytes) (items : list gtree).
Definition gtext (t : gtree) : bytes := let (x, _) := t in x.
Definition gitems (t : gtree) : list gtree := let (_, ts) := t in ts.
(** gotree.go:45-51 [New]. *)
Definition gnew (text : bytes) : gtree := GTree text [].
(** gotree.go:60-63 [AddTree]. *)
Definition add_tree (t u : gtree) : gtree := GTree (gtext t) (gitems t ++ [u]).
(** gotree.go:53-58 [Add]. *)
Definition add_text (t : gtree) (text : bytes) : gtree := add_tree t (gnew text).

(** * Ranks *)

(** gotree.go:89 the longest match of [^[1-9][0-9]*]; [None] is no match. *)
Fixpoint take_digits (b : bytes) : bytes :=
  match b with
  | [] => []
  | c :: b' => if is_digit c then c :: take_digits b' else []
  end.
Definition leading_number (b : bytes) : option bytes :=
  match b with
  | [] => None
  | c :: b' => if is_digit c && negb (Ascii.eqb c "0") then Some (c :: take_digits b') else None
  end.

(** gotree.go:101: the largest int. *)
Definition max_int : Z := 9223372036854775807.

(** gotree.go:87-109 [Rank]; [None] is the panic of a number that does not fit an int. *)
Fixpoint rank (t : gtree) : option Z :=
  match leading_number (gtext t) with
  | Some d => atoi d
  | None =>
      match t with
      | GTree _ [] => Some (-1)%Z
      | GTree _ ts =>
          (fix loop (ts : list gtree) (r : Z) : option Z :=
             match ts with
             | [] => Some r
             | t :: ts' => match rank t with Some i => loop ts' (if (r >? i)%Z then i else r) | None => None end
             end) ts max_int
      end
  end.

(** gotree.go:80-85 [SortItems].  [sort.Slice] is the parameter [sorter]: it gets the items and
    their ranks.  It compares every item with another one if there are at least two, and none
    otherwise. *)
Fixpoint ranks (ts : list gtree) : option (list (Z * gtree)) :=
  match ts with
  | [] => Some []
  | t :: ts' => match rank t, ranks ts' with Some r, Some l => Some ((r, t) :: l) | _, _ => None end
  end.
Definition sort_items (sorter : list (Z * gtree) -> list (Z * gtree)) (t : gtree) : option gtree :=
  match gitems t with
  | [] | [_] => Some t
  | ts => match ranks ts with Some l => Some (GTree (gtext t) (map snd (sorter l))) | None => None end
  end.

(** * Printing *)

(** Slices of booleans. *)
Record bslice := mkBslice { b_arr : nat; b_len : nat; b_cap : nat }.
Definition bheap := list (list bool).
Fixpoint set_at {A} (i : nat) (x : A) (l : list A) : list A :=
  match l, i with
  | [], _ => []
  | _ :: l', O => x :: l'
  | y :: l', S i' => y :: set_at i' x l'
  end.
Definition bcells (h : bheap) (a : nat) : list bool := nth a h [].
Definition bread (h : bheap) (s : bslice) : list bool := firstn (b_len s) (bcells h (b_arr s)).
(** [append(s, x)]: in place when the capacity allows it, else into a new array of at least
    [grow (cap s)] cells. *)
Definition bappend (grow : nat -> nat) (h : bheap) (s : bslice) (x : bool) : bslice * bheap :=
  if Nat.ltb (b_len s) (b_cap s)
  then (mkBslice (b_arr s) (S (b_len s)) (b_cap s), set_at (b_arr s) (set_at (b_len s) x (bcells h (b_arr s))) h)
  else let c := Nat.max (grow (b_cap s)) (S (b_len s)) in
       (mkBslice (length h) (S (b_len s)) c, h ++ [(bread h s ++ [x]) ++ repeat false (c - S (b_len s))]).

(** gotree.go:120-152 [printText]. *)
Definition print_text (text : bytes) (spaces : list bool) (last : bool) : bytes :=
  let result := concat (map (fun space : bool => if space then emptySpace else continueItem) spaces) in
  match split_nl text with
  | [] => []
  | l :: ls =>
      (result ++ (if last then lastItem else middleItem) ++ l ++ [nl]) ++
      concat (map (fun l => result ++ (if last then emptySpace else continueItem) ++ l ++ [nl]) ls)
  end.

(** gotree.go:154-165 [printItems]: one round of the loop, and the loop. *)
Fixpoint print_item (grow : nat -> nat) (f : gtree) (last : bool) (spaces : bslice) (h : bheap) {struct f} : bytes * bheap :=
  let result := print_text (gtext f) (bread h spaces) last in
  match f with
  | GTree _ [] => (result, h)
  | GTree _ ts =>
      let (child, h) := bappend grow h spaces last in
      let (rest, h) :=
        (fix loop (ts : list gtree) (h : bheap) : bytes * bheap :=
           match ts with
           | [] => ([], h)
           | t :: ts' =>
               let (a, h) := print_item grow t (match ts' with [] => true | _ => false end) child h in
               let (b, h) := loop ts' h in (a ++ b, h)
           end) ts h in
      (result ++ rest, h)
  end.
Fixpoint print_items (grow : nat -> nat) (ts : list gtree) (spaces : bslice) (h : bheap) : bytes * bheap :=
  match ts with
  | [] => ([], h)
  | t :: ts' =>
      let (a, h) := print_item grow t (match ts' with [] => true | _ => false end) spaces h in
      let (b, h) := print_items grow ts' spaces h in (a ++ b, h)
  end.

(** gotree.go:75-78, 115-118 [Print]; the empty slice [[]bool{}] has no capacity. *)
Definition print (grow : nat -> nat) (t : gtree) : bytes :=
  gtext t ++ [nl] ++ fst (print_items grow (gitems t) (mkBslice 0 0 0) []).
