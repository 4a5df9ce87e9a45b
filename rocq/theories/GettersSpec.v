(** What the getters that wbnf gen writes should give, said about the terms of the grammar and the parts of a tree. *)
From Verif Require Import Base Scanner ScannerSpec Syntax Ast AstSpec PartsSpec.
Local Open Scope string_scope.

(** The terms that parts come from: tokens, references and what has a name. *)
Fixpoint pieces (t : term) : list term :=
  match t with
  | TS _ | TRE _ | TRule _ | TREF _ _ | TExtRef _ | TNamed _ _ => [t]
  | TSeq ts | TOneof ts | TStack ts => flat_map pieces ts
  | TDelim t sep _ _ _ => pieces t ++ pieces sep
  | TLookAhead t | TQuant t _ _ | TCut t | TScoped t _ => pieces t
  end%list.
(** The grammars nested at the level of [t]. *)
Fixpoint scopes (t : term) : list grammar :=
  match t with
  | TS _ | TRE _ | TRule _ | TREF _ _ | TExtRef _ | TNamed _ _ => []
  | TSeq ts | TOneof ts | TStack ts => flat_map scopes ts
  | TDelim t sep _ _ _ => scopes t ++ scopes sep
  | TLookAhead t | TQuant t _ _ | TCut t => scopes t
  | TScoped t g => g :: scopes t
  end%list.
(** The name that a piece gives its part. *)
Definition piece_name (t : term) : string :=
  match t with TRule r => stem r | TNamed n _ => n | TREF i _ => i | TExtRef s => s | _ => "" end.
(** A token, marked with a cut point or not. *)
Fixpoint is_token (t : term) : bool := match t with TS _ | TRE _ => true | TCut t => is_token t | _ => false end.
(** Only tokens have the name [x]; "" is the name of tokens without a name. *)
Definition tokens_only (x : string) (t : term) : bool :=
  forallb (fun u => negb (String.eqb (piece_name u) x) ||
                    match u with
                    | TS _ | TRE _ => true
                    | TNamed n u => negb (String.eqb n "") && is_token u
                    | _ => false
                    end) (pieces t).
(** Only references to the rule [x] have the name [x]. *)
Definition references_only (x : string) (t : term) : bool :=
  forallb (fun u => negb (String.eqb (piece_name u) x) || match u with TRule r => String.eqb r x | _ => false end) (pieces t).

(** The part [n] is the token [s], a node with just that if it has a name. *)
Definition spells (x : string) (n : anode) (s : scanner) : Prop :=
  if String.eqb x "" then n = ALeaf s else exists b, n = ABranch b /\ made_of [("", ALeaf s)] b.
