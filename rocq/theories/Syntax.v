(** Data types of the parser and ast packages: grammar terms, AST nodes, parse trees. *)
From Verif Require Import Base Scanner.

(** terms.go:91-117 [Associativity], restricted to its three named values. *)
Inductive assoc := RightToLeft | NonAssociative | LeftToRight.

(** terms.go:123-159, the term types.  Simplifications: [Quant.Min/Max] are naturals,
    [REF.Default] is a literal or nil (compile.go builds nothing else), a [Grammar] is an
    association list. *)
Inductive term :=
| TRule (r : string)
| TS (s : bytes)
| TRE (s : bytes)
| TREF (ident : string) (default : option bytes)
| TExtRef (s : string)
| TSeq (ts : list term)
| TOneof (ts : list term)
| TStack (ts : list term)
| TDelim (t sep : term) (a : assoc) (canStart canEnd : bool)
| TLookAhead (t : term)
| TQuant (t : term) (qmin qmax : nat)
| TNamed (name : string) (t : term)
| TScoped (t : term) (g : list (string * term))
| TCut (t : term).

(** terms.go:16 [Grammar]. *)
Definition grammar := list (string * term).

(** terms.go:161-171, the helper constructors. *)
Definition NonAssoc (t sep : term) := TDelim t sep NonAssociative false false.
Definition L2R (t sep : term) := TDelim t sep LeftToRight false false.
Definition R2L (t sep : term) := TDelim t sep RightToLeft false false.
Definition Opt (t : term) := TQuant t 0 1.
Definition Any (t : term) := TQuant t 0 0.
Definition Some_ (t : term) := TQuant t 1 0.
Definition Eq_ (name : string) (t : term) := TNamed name t.

(** parser.go:13-21, the tags and special rule names. *)
Definition StackDelim := "@"%string.
Definition seqTag := "_"%string.
Definition oneofTag := "|"%string.
Definition delimTag := ":"%string.
Definition quantTag := "?"%string.
Definition lookaheadTag := "?="%string.
Definition WrapRE := ".wrapRE"%string.

(** Induction over terms with the nested lists taken into account. *)
Section TermInd.
  Variable P : term -> Prop.
  Hypothesis HRule : forall r, P (TRule r).
  Hypothesis HS : forall s, P (TS s).
  Hypothesis HRE : forall s, P (TRE s).
  Hypothesis HREF : forall i d, P (TREF i d).
  Hypothesis HExt : forall s, P (TExtRef s).
  Hypothesis HSeq : forall ts, Forall P ts -> P (TSeq ts).
  Hypothesis HOneof : forall ts, Forall P ts -> P (TOneof ts).
  Hypothesis HStack : forall ts, Forall P ts -> P (TStack ts).
  Hypothesis HDelim : forall t sep a cs ce, P t -> P sep -> P (TDelim t sep a cs ce).
  Hypothesis HLook : forall t, P t -> P (TLookAhead t).
  Hypothesis HQuant : forall t mn mx, P t -> P (TQuant t mn mx).
  Hypothesis HNamed : forall n t, P t -> P (TNamed n t).
  Hypothesis HScoped : forall t g, P t -> Forall (fun kv => P (snd kv)) g -> P (TScoped t g).
  Hypothesis HCut : forall t, P t -> P (TCut t).

  Fixpoint term_ind' (t : term) : P t :=
    let list_ind := fix go (ts : list term) : Forall P ts :=
      match ts with
      | [] => Forall_nil P
      | x :: ts' => Forall_cons x (term_ind' x) (go ts')
      end in
    let gram_ind := fix go (g : list (string * term)) : Forall (fun kv => P (snd kv)) g :=
      match g with
      | [] => Forall_nil _
      | kv :: g' => Forall_cons kv (term_ind' (snd kv)) (go g')
      end in
    match t with
    | TRule r => HRule r
    | TS s => HS s
    | TRE s => HRE s
    | TREF i d => HREF i d
    | TExtRef s => HExt s
    | TSeq ts => HSeq ts (list_ind ts)
    | TOneof ts => HOneof ts (list_ind ts)
    | TStack ts => HStack ts (list_ind ts)
    | TDelim t sep a cs ce => HDelim t sep a cs ce (term_ind' t) (term_ind' sep)
    | TLookAhead t => HLook t (term_ind' t)
    | TQuant t mn mx => HQuant t mn mx (term_ind' t)
    | TNamed n t => HNamed n t (term_ind' t)
    | TScoped t g => HScoped t g (term_ind' t) (gram_ind g)
    | TCut t => HCut t (term_ind' t)
    end.
End TermInd.

(** ast/node.go:97-99 [Extra.Data], the dynamic types the code stores in it. *)
Inductive adata :=
| DRule (r : string)      (* parser.Rule *)
| DChoice (c : nat)       (* parser.Choice *)
| DString (s : string)    (* string *)
| DInt (z : Z).           (* int *)

(** ast/node.go:35-39 [Children]: [One] or [Many]. *)
Inductive children (A : Type) := One (n : A) | Many (ns : list A).
Arguments One {A} n.
Arguments Many {A} ns.

(** ast/node.go:41-63 [Node]: [Branch], [Leaf], [Extra]. *)
Inductive anode :=
| ABranch (b : list (string * children anode))
| ALeaf (s : scanner)
| AExtra (d : adata).

Definition branch := list (string * children anode).

(** parsernodes.go:14-22 [Extra] of a parse node; [XBranch] is the AST put there by
    [ast.NewExtRefTreeElement]. *)
Inductive extra :=
| XNone
| XChoice (c : nat)
| XAssoc (a : assoc)
| XBranch (b : branch).

(** parsernodes.go:7-22 and parser.go:387-389: [TreeElement] is a [Node], a [Scanner] or
    [Empty].  The nil tree element is not modelled. *)
Inductive tree :=
| Node (tag : string) (x : extra) (cs : list tree)
| Leaf (s : scanner)
| Empty.

Section TreeInd.
  Variable P : tree -> Prop.
  Hypothesis HNode : forall tag x cs, Forall P cs -> P (Node tag x cs).
  Hypothesis HLeaf : forall s, P (Leaf s).
  Hypothesis HEmpty : P Empty.
  Fixpoint tree_ind' (t : tree) : P t :=
    match t with
    | Node tag x cs => HNode tag x cs
        ((fix go (ts : list tree) : Forall P ts :=
            match ts with
            | [] => Forall_nil P
            | y :: ts' => Forall_cons y (tree_ind' y) (go ts')
            end) cs)
    | Leaf s => HLeaf s
    | Empty => HEmpty
    end.
End TreeInd.

(** Leaves of a tree, left to right. *)
Fixpoint leaves (t : tree) : list scanner :=
  match t with
  | Node _ _ cs => flat_map leaves cs
  | Leaf s => [s]
  | Empty => []
  end.
