(** Property C69: printed trees. *)
From Verif Require Import Base Scanner Gotree GotreeSpec GotreeProofs.

(** C69: every tree has one drawing, and [Print] gives its lines, however the slices of
    [printItems] grow and share arrays ... *)
Theorem C69_print : forall t, exists ls, (forall ls', drawing t ls' <-> ls' = ls) /\
  forall grow, print grow t = concat (map (fun l => l ++ [nl]) ls).
Proof. exact print_is_drawing. Qed.
Print Assumptions C69_print.

(** ... so that trees whose texts do not imitate items are told apart by their prints. *)
Theorem C69_injective : forall grow grow' t u, tidy t -> tidy u -> print grow t = print grow' u -> t = u.
Proof. exact print_injective. Qed.
Print Assumptions C69_injective.

(** A text with several lines, an item with items that is not the last, and the last one. *)
Definition grove : gtree :=
  GTree (bs "root") [GTree (bs "a") [GTree (bs "one" ++ [nl] ++ bs "two") [gnew (bs "x")]; gnew []]; GTree (bs "b") [gnew (bs "y")]].
Example C69_example :
  tidy grove /\ print (fun n => 2 * n) grove = concat (map (fun l => bs l ++ [nl])
    ["root";
     "├── a";
     "│   ├── one";
     "│   │   two";
     "│   │   └── x";
     "│   └── ";
     "└── b";
     "    └── y"]%string).
Proof.
  split; [|vm_compute; reflexivity].
  assert (X : forall x, split_nl x = [x] -> forall l ls, lines x (l :: ls) ->
    Forall (fun m => ~ starts (bs "├── ") m /\ ~ starts (bs "└── ") m) ls).
  { intros x E l ls L. assert (Y := lines_one _ _ L _ (lines_split x)). rewrite E in Y. injection Y as _ ->. constructor. }
  simpl. repeat split; auto; try (apply X; reflexivity).
  intros l ls L. assert (Y := lines_one _ _ L _ (lines_split _)). vm_compute in Y. injection Y as _ ->.
  repeat constructor; intros [r E]; discriminate E.
Qed.

(** A text that imitates an item is not told from one. *)
Theorem C69_injective_refuted : exists t u, t <> u /\ forall grow grow', print grow t = print grow' u.
Proof.
  exists (gnew (bs "a" ++ [nl] ++ bs "└── b")), (GTree (bs "a") [gnew (bs "b")]). split; [discriminate|]. reflexivity.
Qed.
Print Assumptions C69_injective_refuted.
