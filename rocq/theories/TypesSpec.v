(** What the getters that wbnf gen writes should give access to, said about the terms of the grammar. *)
From Verif Require Import Base Scanner Syntax Types.
Local Open Scope string_scope.

(** * What a type offers *)

(** A method of type [T] that reads the children named [x] of its node, or the whole text of a node that
    is one token; a method that gives all of them. *)
Definition reads_child (ds : list decl) (T x : string) : Prop :=
  exists n m, In (DMethod T n m) ds /\
    ((exists ret, m = MOne x ret \/ m = MAll x ret) \/ m = MRef x \/ (m = MString /\ x = "")).
Definition reads_all (ds : list decl) (T x : string) : Prop := exists n ret, In (DMethod T n (MAll x ret)) ds.

(** * Names *)

(** [n] is the name of no rule, no reference and no part of [t], its nested grammars included. *)
Fixpoint without (n : string) (t : term) : bool :=
  match t with
  | TRule r => negb (String.eqb r n)
  | TS _ | TRE _ | TExtRef _ => true
  | TREF i _ => negb (String.eqb i n)
  | TSeq ts | TOneof ts | TStack ts => forallb (without n) ts
  | TDelim t sep _ _ _ => without n t && without n sep
  | TLookAhead t | TQuant t _ _ | TCut t => without n t
  | TNamed m t => negb (String.eqb m n) && without n t
  | TScoped t g => without n t && forallb (fun kv => negb (String.eqb (fst kv) n) && without n (snd kv)) g
  end%bool.
Definition grammar_without (n : string) (g : grammar) : bool :=
  forallb (fun kv => negb (String.eqb (fst kv) n) && without n (snd kv))%bool g.
(** "Token" is the name that the generator uses for tokens without a name. *)
Definition proper_names (g : grammar) : Prop :=
  grammar_without "" g = true /\ grammar_without "Token" g = true /\ grammar_without "@" g = true.

(** * Terms at the level of their rule *)

(** No stack or external reference, and separators have names; with [lits] they may be literals. *)
Fixpoint open_term (lits : bool) (t : term) : bool :=
  match t with
  | TRule _ | TS _ | TRE _ | TREF _ _ | TNamed _ _ => true
  | TExtRef _ | TStack _ => false
  | TSeq ts | TOneof ts => forallb (open_term lits) ts
  | TDelim t sep _ _ _ =>
      open_term lits t && match sep with TNamed _ _ => true | TS _ | TCut (TS _) => lits | _ => false end
  | TLookAhead t | TQuant t _ _ | TCut t | TScoped t _ => open_term lits t
  end%bool.

(** How often a name can occur among the children of a node of [t]; 2 and more mean more than once. *)
Definition if_same (x y : string) : nat := if String.eqb x y then 1 else 0.
Fixpoint most (x : string) (t : term) : nat :=
  match t with
  | TS _ | TRE _ => if_same x ""
  | TRule n | TNamed n _ | TREF n _ | TExtRef n => if_same x n
  | TSeq ts => fold_right (fun t a => most x t + a) 0 ts
  | TOneof ts | TStack ts => fold_right (fun t a => Nat.max (most x t) a) 0 ts
  | TDelim t sep _ _ _ => 2 * most x t + 2 * most x sep
  | TQuant t _ mx => if Nat.eqb mx 1 then most x t else 2 * most x t
  | TLookAhead t | TCut t | TScoped t _ => most x t
  end.

(** The names of the parts of [t], without its back references; those of them that are in a repetition or in
    a list. *)
Fixpoint parts (t : term) : list string :=
  match t with
  | TS _ | TRE _ => [""]
  | TRule n | TNamed n _ => [n]
  | TREF _ _ | TExtRef _ | TStack _ => []
  | TSeq ts | TOneof ts => flat_map parts ts
  | TDelim t sep _ _ _ => parts t ++ match sep with TNamed n _ => [n] | _ => [] end
  | TQuant t _ _ | TLookAhead t | TCut t | TScoped t _ => parts t
  end.
Fixpoint repeated (t : term) : list string :=
  match t with
  | TSeq ts | TOneof ts => flat_map repeated ts
  | TDelim t sep _ _ _ => parts t ++ match sep with TNamed _ (TS _) | TNamed _ (TCut _) => [] | TNamed n _ => [n] | _ => [] end
  | TQuant t _ mx => if Nat.eqb mx 1 then repeated t else parts t
  | TLookAhead t | TCut t | TScoped t _ => repeated t
  | _ => []
  end.
(** The tokens and references that stand in [t] by themselves: without a name, outside of repetitions, lists and
    choices. *)
Fixpoint direct (t : term) : list string :=
  match t with
  | TS _ | TRE _ => [""]
  | TRule n => [n]
  | TSeq ts => flat_map direct ts
  | TQuant t _ mx => if Nat.eqb mx 1 then direct t else []
  | TLookAhead t | TCut t | TScoped t _ => direct t
  | _ => []
  end.
(** Some alternative in [t] has [x] twice by itself. *)
Definition two (x : string) (l : list string) : bool := Nat.leb 2 (count_occ string_dec l x).
Fixpoint twice_in_alternative (x : string) (t : term) : bool :=
  match t with
  | TSeq ts => existsb (twice_in_alternative x) ts
  | TOneof ts => existsb (fun t => two x (direct t) || twice_in_alternative x t) ts
  | TQuant t _ mx => Nat.eqb mx 1 && twice_in_alternative x t
  | TLookAhead t | TCut t | TScoped t _ => twice_in_alternative x t
  | _ => false
  end%bool.
(** The parts (false) and the back references (true) in order; whether [x] is referred back to after a part. *)
Fixpoint turns (t : term) : list (string * bool) :=
  match t with
  | TS _ | TRE _ => [("", false)]
  | TRule n | TNamed n _ => [(n, false)]
  | TREF n _ => [(n, true)]
  | TExtRef _ | TStack _ => []
  | TSeq ts | TOneof ts => flat_map turns ts
  | TDelim t sep _ _ _ => turns t ++ match sep with TNamed n _ => [(n, false)] | _ => [] end
  | TQuant t _ _ | TLookAhead t | TCut t | TScoped t _ => turns t
  end.
Fixpoint echoed (x : string) (seen : bool) (l : list (string * bool)) : bool :=
  match l with
  | [] => false
  | (y, back) :: l' =>
      if String.eqb x y then (back && seen) || echoed x (negb back || seen) l' else echoed x seen l'
  end%bool.
(** The first part of [t], if it has one: is it a token that is not repeated? *)
Fixpoint first_token (t : term) : option bool :=
  match t with
  | TS _ | TRE _ => Some true
  | TRule _ | TNamed _ _ | TREF _ _ | TOneof _ => Some false
  | TExtRef _ | TStack _ => None
  | TSeq ts => fold_right (fun t o => match first_token t with Some b => Some b | None => o end) None ts
  | TDelim t sep _ _ _ =>
      match first_token t, sep with Some _, _ | None, TNamed _ _ => Some false | _, _ => None end
  | TQuant t _ mx => if Nat.eqb mx 1 then first_token t else option_map (fun _ => false) (first_token t)
  | TLookAhead t | TCut t | TScoped t _ => first_token t
  end.

(** The generator notices that [x] can occur more than once: in a repetition or list, by a back
    reference, twice in an alternative, or twice by itself.  It forgets a token at the start. *)
Definition noticed (x : string) (t : term) : bool :=
  existsb (String.eqb x) (repeated t) || echoed x false (turns t) || twice_in_alternative x t ||
  two x (match first_token t, direct t with Some true, _ :: l => l | _, l => l end).

(** * Grammars with types *)

(** Something in [t] belongs to the node of its rule: not only external references and separators. *)
Fixpoint shows (t : term) : bool :=
  match t with
  | TS _ | TRE _ | TRule _ | TREF _ _ | TNamed _ _ | TOneof _ => true
  | TExtRef _ => false
  | TSeq ts | TStack ts => existsb shows ts
  | TDelim t sep _ _ _ => shows t || match sep with TNamed _ _ => true | _ => false end
  | TQuant t _ _ | TLookAhead t | TCut t | TScoped t _ => shows t
  end%bool.
(** The references of [t] are to rules of [sc] and of the grammars nested in [t], all of which show something. *)
Fixpoint settled (sc : list string) (t : term) : bool :=
  match t with
  | TRule r => String.eqb r "@" || existsb (String.eqb r) sc
  | TS _ | TRE _ | TREF _ _ | TExtRef _ => true
  | TSeq ts | TOneof ts | TStack ts => forallb (settled sc) ts
  | TDelim t sep _ _ _ => settled sc t && settled sc sep
  | TNamed _ t | TQuant t _ _ | TLookAhead t | TCut t => settled sc t
  | TScoped t g =>
      let sc := (map fst g ++ sc)%list in
      settled sc t && forallb (fun kv => negb (String.eqb (fst kv) "@") && shows (snd kv) && settled sc (snd kv)) g
  end%bool.
Definition settled_grammar (g : grammar) : bool :=
  forallb (fun kv => shows (snd kv) && settled (map fst g) (snd kv))%bool g.

(** Groups with a name show something, and references with a name are to rules of [tops]. *)
Fixpoint returned (tops : list string) (t : term) : bool :=
  match t with
  | TRule _ | TS _ | TRE _ | TREF _ _ | TExtRef _ => true
  | TSeq ts | TOneof ts | TStack ts => forallb (returned tops) ts
  | TDelim t sep _ _ _ => returned tops t && returned tops sep
  | TQuant t _ _ | TLookAhead t | TCut t => returned tops t
  | TNamed _ u =>
      match u with
      | TRule r => String.eqb r "@" || existsb (String.eqb r) tops
      | TS _ | TRE _ | TCut _ => true
      | _ => shows u && returned tops u
      end
  | TScoped t g => returned tops t && forallb (fun kv => returned tops (snd kv)) g
  end%bool.
(** The type that a getter returns. *)
Definition result_type (m : method) : option string := match m with MOne _ r | MAll _ r => r | _ => None end.

(** * Declarations *)

(** What Go allows only once: a type of a name, and a method of a name for a type. *)
Definition header (d : decl) : string * option string :=
  match d with DType T => (T, None) | DMethod T n _ => (T, Some n) end.

(** The names of parts in [t], its nested grammars included. *)
Fixpoint labels (t : term) : list string :=
  match t with
  | TRule r => [r]
  | TS _ | TRE _ | TREF _ _ | TExtRef _ => []
  | TSeq ts | TOneof ts | TStack ts => flat_map labels ts
  | TDelim t sep _ _ _ => labels t ++ labels sep
  | TNamed n t => n :: labels t
  | TQuant t _ _ | TLookAhead t | TCut t => labels t
  | TScoped t g => labels t ++ flat_map (fun kv => labels (snd kv)) g
  end%list.
Definition grammar_labels (g : grammar) : list string := flat_map (fun kv => labels (snd kv)) g.
(** No back references. *)
Fixpoint no_backs (t : term) : bool :=
  match t with
  | TREF _ _ => false
  | TRule _ | TS _ | TRE _ | TExtRef _ => true
  | TSeq ts | TOneof ts | TStack ts => forallb no_backs ts
  | TDelim t sep _ _ _ => no_backs t && no_backs sep
  | TNamed _ t | TQuant t _ _ | TLookAhead t | TCut t => no_backs t
  | TScoped t g => no_backs t && forallb (fun kv => no_backs (snd kv)) g
  end%bool.
(** Names that stay different in Go; [title] makes a name of Go from a name. *)
Definition distinct_in_go (title : string -> string) (names : list string) : Prop :=
  (forall x y, In x names -> In y names -> title x = title y -> x = y) /\
  (forall x, In x names -> title x = "Token" -> x = "Token") /\ ~ In "@choice" names.

(** * Walks *)

(** The method that a walk function calls. *)
Definition getter_name (getter : string) (all : bool) : string := (if all then "All" else "One") ++ getter.
(** The walk function of type [T] calls a getter for nodes of type [R]. *)
Definition calls (ws : list (string * list (string * bool * string * bool))) (T getter : string) (all : bool) (R : string) : Prop :=
  exists l w, lookup T ws = Some l /\ In (getter, all, R, w) l.
(** The names that are given to tokens in [t], its nested grammars included. *)
Fixpoint token_names (t : term) : list string :=
  match t with
  | TRule _ | TS _ | TRE _ | TREF _ _ | TExtRef _ => []
  | TSeq ts | TOneof ts | TStack ts => flat_map token_names ts
  | TDelim t sep _ _ _ => token_names t ++ token_names sep
  | TNamed n u => match u with TS _ | TRE _ | TCut _ => [n] | _ => [] end ++ token_names u
  | TQuant t _ _ | TLookAhead t | TCut t => token_names t
  | TScoped t g => token_names t ++ flat_map (fun kv => token_names (snd kv)) g
  end%list.
Definition grammar_tokens (g : grammar) : list string := flat_map (fun kv => token_names (snd kv)) g.
