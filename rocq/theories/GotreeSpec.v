(** What a printed tree shows, said by indenting whole blocks of lines. *)
From Verif Require Import Base Scanner Gotree.

(** The lines of a block, the first one after [a] and the others after [b]. *)
Definition hang (a b : bytes) (block : list bytes) : list bytes :=
  match block with
  | [] => []
  | l :: ls => (a ++ l) :: map (app b) ls
  end.
Fixpoint hang_all (blocks : list (list bytes)) : list bytes :=
  match blocks with
  | [] => []
  | [b] => hang (bs "└── ") (bs "    ") b
  | b :: bs' => hang (bs "├── ") (bs "│   ") b ++ hang_all bs'
  end.

(** [lines text ls]: the text is the lines [ls] with newlines between them. *)
Inductive lines : bytes -> list bytes -> Prop :=
| li_last : forall l, ~ In nl l -> lines l [l]
| li_more : forall l b ls, ~ In nl l -> lines b ls -> lines (l ++ [nl] ++ b) (l :: ls).

(** The drawing of a tree: the lines of its text, then the drawings of its items. *)
Inductive drawing : gtree -> list bytes -> Prop :=
| dr_tree : forall x ts ls blocks, lines x ls -> Forall2 drawing ts blocks ->
    drawing (GTree x ts) (ls ++ hang_all blocks).

(** No line of a text, save the first, looks like the first line of an item. *)
Definition starts (p l : bytes) : Prop := exists r, l = p ++ r.
Fixpoint tidy (t : gtree) : Prop :=
  match t with
  | GTree x ts =>
      (forall l ls, lines x (l :: ls) -> Forall (fun m => ~ starts (bs "├── ") m /\ ~ starts (bs "└── ") m) ls) /\
      (fix all (ts : list gtree) : Prop := match ts with [] => True | t :: ts' => tidy t /\ all ts' end) ts
  end.
