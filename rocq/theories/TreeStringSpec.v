(** Trees that look the same, and trees whose printed forms tell them apart. *)
From Verif Require Import Base Scanner Syntax ScannerSpec PegSpec.
Local Open Scope list_scope.

(** A leaf that has a source and shows [x]. *)
Definition leaf_of (s : scanner) (x : bytes) : Prop := src s <> None /\ shows s x.

(** The same nodes with the same tags and extras, and leaves with the same texts, wherever in whatever source. *)
Inductive look_alike : tree -> tree -> Prop :=
| la_node : forall tag x cs ds, Forall2 look_alike cs ds -> look_alike (Node tag x cs) (Node tag x ds)
| la_leaf : forall s s' x, leaf_of s x -> leaf_of s' x -> look_alike (Leaf s) (Leaf s')
| la_empty : look_alike Empty Empty.

(** Every leaf has a text, and no node carries an AST. *)
Inductive printable : tree -> Prop :=
| pt_node : forall tag x cs, (forall b, x <> XBranch b) -> Forall printable cs -> printable (Node tag x cs)
| pt_leaf : forall s x, leaf_of s x -> printable (Leaf s)
| pt_empty : printable Empty.

(** The characters the printed form uses for itself.  The mark before an extra starts with the byte 226. *)
Definition marks : bytes := ["["; "]"; ","; "226"]%char.
Definition unmarked (x : bytes) : Prop := forall c, In c x -> ~ In c marks.
(** Tags and leaf texts that do not look like something else. *)
Definition good_tag (tag : string) : Prop := unmarked (bs tag) /\ ~ In "{"%char (bs tag) /\ ~ In """"%char (bs tag).
Definition good_text (x : bytes) : Prop := x <> [] /\ unmarked x /\ ~ In "{"%char x.

(** Trees made of such tags, without ASTs, with alternatives that are numbers of characters; [P] holds for the texts of the leaves. *)
Inductive plain_tree (P : bytes -> Prop) : tree -> Prop :=
| pl_node : forall tag x cs, good_tag tag -> (forall b, x <> XBranch b) -> (forall i, x = XChoice i -> (Z.of_nat i < 55296)%Z) ->
    Forall (plain_tree P) cs -> plain_tree P (Node tag x cs)
| pl_leaf : forall s, (forall x, leaf_of s x -> P x) -> plain_tree P (Leaf s)
| pl_empty : plain_tree P Empty.

(** What is used of the quoting of runes: where it ends can be told, and it starts with an apostrophe.  (From 55296 on there are
    numbers that are not characters, and those are all quoted alike.) *)
Definition rune_quotes (q : nat -> bytes) : Prop :=
  (forall n, exists r, q n = "'"%char :: r) /\
  (forall n m r r', (Z.of_nat n < 55296)%Z -> (Z.of_nat m < 55296)%Z -> q n ++ r = q m ++ r' -> n = m /\ r = r').

(** The names in a term, of its rules and of the rules of the grammars in it, are good tags, and there are not too many alternatives. *)
Fixpoint good_names (t : term) : Prop :=
  match t with
  | TS _ | TRE _ | TExtRef _ => True
  | TRule r => good_tag r
  | TREF i _ => good_tag i
  | TNamed n t => good_tag n /\ good_names t
  | TSeq ts | TStack ts => (fix go l := match l with [] => True | u :: l' => good_names u /\ go l' end) ts
  | TOneof ts => (Z.of_nat (length ts) <= 55296)%Z /\ (fix go l := match l with [] => True | u :: l' => good_names u /\ go l' end) ts
  | TDelim t sep _ _ _ => good_names t /\ good_names sep
  | TLookAhead t | TQuant t _ _ | TCut t => good_names t
  | TScoped t g => good_names t /\ (fix go (l : grammar) := match l with [] => True | kv :: l' => good_names (snd kv) /\ go l' end) g
  end.
Definition good_grammar (g : grammar) : Prop := Forall (fun kv : string * term => good_names (snd kv)) g.
