(** What a depth-first walk is, independently of the walk functions. *)
From Verif Require Import Base Scanner Syntax Resolve Ast WbnfAst WbnfGrammar Walker.

(** * The children of a node, read off the grammar of wbnf *)

(** The rule and the term that describe the nodes of a type. *)
Definition inside (t : option term) : grammar := match t with Some (TScoped _ g) => g | _ => [] end.
Fixpoint under (name : string) (t : term) : option term :=
  let first := fix first (ts : list term) := match ts with [] => None | t :: ts' => match under name t with Some u => Some u | None => first ts' end end in
  match t with
  | TNamed n u => if String.eqb n name then Some u else under name u
  | TSeq ts | TOneof ts | TStack ts => first ts
  | _ => None
  end.
Definition rule (x : string) : string * option term := (x, lookup x wbnf_grammar).
Definition pragma_rule (x : string) : string * option term := (x, lookup x (inside (lookup "pragma"%string wbnf_grammar))).
Definition part (x : string * option term) (name : string) : string * option term :=
  (name, match snd x with Some t => under name t | None => None end).
Definition described (k : kind) : string * option term :=
  match k with
  | KAtom => rule "atom" | KComment => rule "COMMENT" | KGrammar => rule "grammar" | KIdent => rule "IDENT" | KInt => rule "INT"
  | KMacrocall => rule "macrocall" | KNamed => rule "named" | KPragma => rule "pragma" | KProd => rule "prod" | KQuant => rule "quant"
  | KRe => rule "RE" | KRef => rule "REF" | KStmt => rule "stmt" | KStr => rule "STR" | KTerm => rule "term" | KWrapRe => rule ".wrapRE"
  | KPragmaImport => pragma_rule "import" | KPragmaMacrodef => pragma_rule "macrodef"
  | KAtomExtRef => part (rule "atom") "ExtRef" | KPragmaImportPath => part (pragma_rule "import") "path"
  end%string.
Definition every_kind : list kind :=
  [KAtomExtRef; KAtom; KComment; KGrammar; KIdent; KInt; KMacrocall; KNamed; KPragmaImport; KPragmaImportPath; KPragmaMacrodef;
   KPragma; KProd; KQuant; KRe; KRef; KStmt; KStr; KTerm; KWrapRe].

(** Tokens: nodes of these types have no children. *)
Definition token_kind (k : kind) : bool := match snd (described k) with Some (TRE _) => true | _ => false end.

(** The children that a match of the rule [self] can have: their name, and the rule or part that describes them.  Tokens without
    a rule have no type.  [@] in a stack is the stack itself. *)
Definition call (self r : string) : string := if String.eqb r StackDelim then self else r.
Fixpoint offers (self : string) (t : term) : list (string * string) :=
  match t with
  | TRule r => [(call self r, call self r)]
  | TNamed n (TRule r) => [(n, call self r)]
  | TNamed n (TS _) | TNamed n (TRE _) => []
  | TNamed n _ => [(n, n)]
  | TSeq ts | TOneof ts | TStack ts => flat_map (offers self) ts
  | TDelim t sep _ _ _ => offers self t ++ offers self sep
  | TLookAhead t | TQuant t _ _ | TCut t | TScoped t _ => offers self t
  | _ => []
  end.
(** How many children of the name there can be; 2 stands for any number above 1. *)
Fixpoint most (self name : string) (t : term) : nat :=
  match t with
  | TRule r => if String.eqb (call self r) name then 1 else 0
  | TNamed n _ => if String.eqb n name then 1 else 0
  | TSeq ts => list_sum (map (most self name) ts)
  | TOneof ts | TStack ts => list_max (map (most self name) ts)
  | TDelim t sep _ _ _ => 2 * (most self name t + most self name sep)
  | TQuant t _ mx => if Nat.eqb mx 1 then most self name t else 2 * most self name t
  | TLookAhead t | TCut t | TScoped t _ => most self name t
  | _ => 0
  end.
(** In alphabetical order, ignoring case, each once. *)
Definition lower (s : string) : string := sb (map (fun c => let n := nat_of_ascii c in if (Nat.leb 65 n && Nat.leb n 90)%bool then ascii_of_nat (n + 32) else c) (bs s)).
Fixpoint sort_in (x : string * string) (l : list (string * string)) : list (string * string) :=
  match l with
  | [] => [x]
  | y :: l' => match String.compare (lower (fst x)) (lower (fst y)) with Lt => x :: l | Eq => l | Gt => y :: sort_in x l' end
  end.
Definition children_of (k : kind) : list (string * bool * string) :=
  match described k with
  | (self, Some t) => map (fun nr => (fst nr, Nat.ltb 1 (most self (fst nr) t), snd nr)) (fold_right sort_in [] (offers self t))
  | (_, None) => []
  end.
(** The children in an AST: for a name that can occur only once, the first. *)
Definition labelled (name : string) (n : anode) : list anode :=
  match n with
  | ABranch b => match lookup name b with Some (One m) => [m] | Some (Many ms) => ms | None => [] end
  | _ => []
  end.
Definition kind_of_rule (x : string) : list kind := filter (fun k => String.eqb (fst (described k)) x) every_kind.
Definition expected (k : kind) (n : anode) : list (kind * anode) :=
  flat_map (fun '(name, many, r) => flat_map (fun k' => map (fun m => (k', m)) (if many : bool then labelled name n else firstn 1 (labelled name n))) (kind_of_rule r))
    (children_of k).

(** * Walks *)

Inductive event := Enter (k : kind) (n : anode) | Exit (k : kind) (n : anode).

(** The calls of a walk in which [stop] tells the nodes whose subtree is to be skipped: a node is
    entered, then its children are walked in order, then it is left.  Tokens, and
    those that stop the walk, are only entered. *)
Inductive tour (stop : kind -> anode -> bool) : kind -> anode -> list event -> Prop :=
| tour_leaf k n : token_kind k = true -> tour stop k n [Enter k n]
| tour_stop k n : token_kind k = false -> stop k n = true -> tour stop k n [Enter k n]
| tour_node k n evs : token_kind k = false -> stop k n = false -> tours stop (expected k n) evs ->
    tour stop k n (Enter k n :: evs ++ [Exit k n])
with tours (stop : kind -> anode -> bool) : list (kind * anode) -> list event -> Prop :=
| tours_nil : tours stop [] []
| tours_cons k n l evs evs' : tour stop k n evs -> tours stop l evs' -> tours stop ((k, n) :: l) (evs ++ evs').

(** The height of an AST. *)
Fixpoint height (n : anode) : nat :=
  match n with
  | ABranch b => S (fold_right Nat.max 0
      (map (fun kv : string * children anode =>
              match snd kv with
              | One m => height m
              | Many ms => fold_right Nat.max 0 (map height ms)
              end) b))
  | _ => 0
  end.
