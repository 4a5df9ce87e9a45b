(** What the AST of a parse tree should hold: the parts of the tree, under their names, in order. *)
From Verif Require Import Base Scanner Syntax Engine PegSpec DerivSpec Ast AstSpec.
Local Open Scope string_scope.

(** The parts of a name. *)
Definition named (k : string) (l : list (string * anode)) : list anode :=
  map snd (filter (fun p => String.eqb (fst p) k) l).
(** [b] has these parts as its children, and no others. *)
Definition made_of (l : list (string * anode)) (b : branch) : Prop := NoDup (map fst b) /\ forall k,
  match lookup k b with
  | None => named k l = []
  | Some (One n) => named k l = [n]
  | Some (Many ns) => named k l = ns /\ ns <> []
  end.

(** A repeated value: its leaves, with the name again at every level. *)
Inductive echo (i : string) : tree -> anode -> Prop :=
| ec_leaf : forall s, echo i (Leaf s) (ALeaf s)
| ec_node : forall tag x cs ns b, echo_all i cs ns -> made_of (map (pair i) ns) b -> echo i (Node tag x cs) (ABranch b)
with echo_all (i : string) : list tree -> list anode -> Prop :=
| ea_nil : echo_all i [] []
| ea_cons : forall v n cs ns, echo i v n -> echo_all i cs ns -> echo_all i (v :: cs) (n :: ns).

(** [level gs t v l]: the parts that [v], a tree of [t], has at its own level.  A token has no name; what has a
    name and what a rule makes is a node with the parts of a level of its own.  A layer of a stack
    goes by the name of the stack.  Choices, and separators left out at the ends of lists, are recorded. *)
Inductive level : grammars -> term -> tree -> list (string * anode) -> Prop :=
| lv_lit : forall gs x s, level gs (TS x) (Leaf s) [("", ALeaf s)]
| lv_re : forall gs x s, level gs (TRE x) (Leaf s) [("", ALeaf s)]
| lv_named : forall gs n t v l b, level gs t v l -> made_of l b -> level gs (TNamed n t) v [(n, ABranch b)]
| lv_rule : forall gs r gs' t v l b, defines gs r gs' t -> level gs' t v l -> made_of l b ->
    level gs (TRule r) v [(stem r, ABranch b)]
| lv_ref : forall gs i d v n, echo i v n -> level gs (TREF i d) v [(i, n)]
| lv_cut : forall gs t v l, level gs t v l -> level gs (TCut t) v l
| lv_scoped : forall gs t g v l, level (g :: gs) t v l -> level gs (TScoped t g) v l
| lv_seq : forall gs ts tag cs l, level_all gs ts cs l -> level gs (TSeq ts) (Node tag XNone cs) l
| lv_alt : forall gs ts tag i t v l, nth_error ts i = Some t -> level gs t v l ->
    level gs (TOneof ts) (Node tag (XChoice i) [v]) (("@choice", AExtra (DChoice i)) :: l)
| lv_rep : forall gs t mn mx tag cs l, level_many gs t cs l -> level gs (TQuant t mn mx) (Node tag XNone cs) l
| lv_look : forall gs t tag v l, level gs t v l -> level gs (TLookAhead t) (Node tag XNone [v]) l
| lv_list : forall gs t sep a cs ce tag items l, level_turns true gs t sep items l ->
    level gs (TDelim t sep a cs ce) (Node tag (XAssoc NonAssociative) items) l
with level_all : grammars -> list term -> list tree -> list (string * anode) -> Prop :=
| la_nil : forall gs, level_all gs [] [] []
| la_cons : forall gs t ts v cs l l', level gs t v l -> level_all gs ts cs l' -> level_all gs (t :: ts) (v :: cs) (l ++ l')
with level_many : grammars -> term -> list tree -> list (string * anode) -> Prop :=
| lm_nil : forall gs t, level_many gs t [] []
| lm_cons : forall gs t v cs l l', level gs t v l -> level_many gs t cs l' -> level_many gs t (v :: cs) (l ++ l')
(** The first argument: whether this is the start of the list. *)
with level_turns : bool -> grammars -> term -> term -> list tree -> list (string * anode) -> Prop :=
| ln_nil : forall i gs t sep, level_turns i gs t sep [] []
| ln_skip : forall i gs t sep cs l, level_turns false gs sep t cs l ->
    level_turns i gs t sep (Empty :: cs) (("@empty", AExtra (DString (if i then "@prefix" else "@suffix"))) :: l)
| ln_take : forall i gs t sep v cs l l', level gs t v l -> level_turns false gs sep t cs l' ->
    level_turns i gs t sep (v :: cs) (l ++ l').

Scheme level_mut := Minimality for level Sort Prop
  with level_all_mut := Minimality for level_all Sort Prop
  with level_many_mut := Minimality for level_many Sort Prop
  with level_turns_mut := Minimality for level_turns Sort Prop.
Combined Scheme level_mutind from level_mut, level_all_mut, level_many_mut, level_turns_mut.

(** The same AST, whatever the order of the entries, and whether a child is held as one or as a list of one. *)
Inductive alike : anode -> anode -> Prop :=
| al_leaf : forall s, alike (ALeaf s) (ALeaf s)
| al_extra : forall d, alike (AExtra d) (AExtra d)
| al_branch : forall b b', (forall k, alike_all (children_at k b) (children_at k b')) -> alike (ABranch b) (ABranch b')
with alike_all : list anode -> list anode -> Prop :=
| aa_nil : alike_all [] []
| aa_cons : forall n m ns ms, alike n m -> alike_all ns ms -> alike_all (n :: ns) (m :: ms).
