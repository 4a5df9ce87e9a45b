(** Model of the Go types that wbnf gen writes for a grammar: cmd/codegen/typebuilder.go, pushtype.go and
    the types and getters of types.go.  The result is the list of declared types and of their methods,
    not the text of the Go source. *)
From Verif Require Import Base Scanner Syntax Resolve Compile Codegen.

(** * Names *)

(** types.go:36-50 [DropCaps]: of several capitals in a row only the first stays one. *)
Definition is_cap (c : ascii) : bool := let n := nat_of_ascii c in (Nat.leb 65 n && Nat.leb n 90)%bool.
Definition lower (c : ascii) : ascii := if is_cap c then ascii_of_nat (nat_of_ascii c + 32) else c.
(** Go's [string] of a byte: the UTF-8 of the rune with its number. *)
Definition rune_of (c : ascii) : bytes :=
  let n := nat_of_ascii c in if Nat.ltb n 128 then [c] else [ascii_of_nat (192 + Nat.div n 64); ascii_of_nat (128 + Nat.modulo n 64)].
Fixpoint drop_caps_from (after_cap : bool) (b : bytes) : bytes :=
  match b with
  | [] => []
  | c :: b' => (if (after_cap && is_cap c)%bool then [lower c] else rune_of c) ++ drop_caps_from (is_cap c) b'
  end.
Definition drop_caps (s : string) : string := sb (drop_caps_from false (bs s)).

(** [strings.HasSuffix] and [strings.TrimSuffix] with "Node". *)
Definition node_suffix (s : string) : option string :=
  match rev (bs s) with
  | "e"%char :: "d"%char :: "o"%char :: "N"%char :: b => Some (sb (rev b))
  | _ => None
  end.

(** types.go:92-114 [countManager]: its two bits and the ids of the terms. *)
Record tally := mkTally { t_one : bool; t_all : bool; t_ids : list Z }.
(** types.go:144-145 [setWantOneGetter], [setWantAllGetter]. *)
Definition want_one : tally := mkTally true false [].
Definition want_all : tally := mkTally false true [].
(** types.go:116-119 [forceMany]. *)
Definition force_many (c : tally) : tally := mkTally (t_one c) true (t_ids c).
(** types.go:120-130 [pushSingleNode]. *)
Definition push_single (id : Z) (c : tally) : tally :=
  if t_all c then c
  else if existsb (Z.eqb id) (t_ids c) then force_many c
  else mkTally (t_one c) (t_all c) (t_ids c ++ [id]).
(** types.go:132-140 [merge]. *)
Definition merge_tally (c other : tally) : tally :=
  if t_all other then force_many c else fold_left (fun c id => push_single id c) (t_ids other) c.

(** types.go:64-90: what a type can have as children.  [GToken] is namedToken, [GUnnamed] is unnamedToken and
    [GRef] is namedRule, with the name of the type its getters return. *)
Inductive gchild :=
| GChoice (parent : string)
| GStackRef (name parent : string)
| GBackRef (name parent : string)
| GToken (name parent : string) (count : tally)
| GUnnamed (parent : string) (count : tally)
| GRef (name parent ret : string) (count : tally).
(** The types themselves: basicRule and rule. *)
Inductive gtype :=
| GBasic (name : string)
| GRule (name : string) (childs : list gchild).
Definition types := list (string * gtype).

(** types.go: the [Ident] methods. *)
Definition ident (c : gchild) : string :=
  match c with
  | GChoice _ => "@choice"
  | GUnnamed _ _ => "Token"
  | GStackRef n _ | GBackRef n _ | GToken n _ _ | GRef n _ _ _ => n
  end%string.
(** types.go: the [Children] methods. *)
Definition type_children (t : gtype) : list gchild := match t with GBasic _ => [] | GRule _ cs => cs end.

(** pushtype.go:47-59 [getNewCount]. *)
Definition new_count (old : tally) (next : gchild) : tally :=
  match next with
  | GUnnamed _ c | GToken _ _ c | GRef _ _ _ c => merge_tally old c
  | GStackRef _ _ | GBackRef _ _ => force_many old
  | GChoice _ => old
  end.
(** pushtype.go:61-100 [checkForDupes]: the loop, with the children passed so far ([done]) and whether the
    new child still has to be added. *)
Fixpoint dupes_from (all : list gchild) (next : gchild) (done : list gchild) (append : bool) (cs : list gchild) : list gchild :=
  match cs with
  | [] => if append then done ++ [next] else done
  | c :: cs' =>
      if String.eqb (ident next) (ident c) then
        match c with
        | GUnnamed p n => dupes_from all next (done ++ [GUnnamed p (new_count n next)]) false cs'
        | GToken x p n => dupes_from all next (done ++ [GToken x p (new_count n next)]) false cs'
        | GRef x p r n => dupes_from all next (done ++ [GRef x p r (new_count n next)]) false cs'
        | GStackRef _ _ => match next with GStackRef _ _ => all | _ => dupes_from all next (done ++ [c]) append cs' end
        | GChoice _ => match next with GChoice _ => all | _ => dupes_from all next (done ++ [c]) append cs' end
        | GBackRef _ _ => dupes_from all next (done ++ [c]) append cs'
        end
      else dupes_from all next (done ++ [c]) append cs'
  end%list.
Definition check_dupes (cs : list gchild) (next : gchild) : list gchild := dupes_from cs next [] true cs.

(** What the walk over a grammar changes: the types, and how many random numbers were drawn. *)
Record tstate := mkT { tmap : types; drawn : nat }.
(** typebuilder.go:24-31: what a rule name stands for. *)
Inductive known := KType (name : string) | KStack (name parent : string).
Definition knowns := list (string * known).

Section Builder.
  (** [strcase.ToCamel] of github.com/iancoleman/strcase, and the numbers [rand.Int()] gives. *)
  Variables (camel : string -> string) (rand : nat -> Z).

  (** types.go:19-34 [GoName]; the map it keeps only saves work. *)
  Definition go_name (rule : string) : string :=
    match node_suffix rule with Some s => s | None => camel (drop_caps rule) end.
  (** types.go:15-17 [GoTypeName]. *)
  Definition go_type_name (rule : string) : string := (go_name rule ++ "Node")%string.

  (** pushtype.go:22-45 [createOrAddParent], types.go:161-166 [Upgrade]. *)
  Definition add_child (parent : string) (child : gchild) (tm : types) : types :=
    let name := go_type_name parent in
    aset name
      match lookup name tm with
      | Some (GBasic n) => GRule name (check_dupes [GUnnamed n want_one] child)
      | Some (GRule _ cs) => GRule name (check_dupes cs child)
      | None => match child with
                | GUnnamed _ c => if t_one c then GBasic name else GRule name [child]
                | _ => GRule name [child]
                end
      end tm.
  (** pushtype.go:7-20 [pushType]; the children it is called with never reach its panic. *)
  Definition push (parent : string) (child : gchild) (st : tstate) : tstate :=
    mkT (add_child parent child (tmap st)) (drawn st).

  (** typebuilder.go:33-39 [mergeGrammarRules]. *)
  Definition merge_known (prefix : string) (g : grammar) (kn : knowns) : knowns :=
    fold_left (fun kn (kv : string * term) => aset (fst kv) (KType (prefix ++ go_name (fst kv))) kn) g kn.

  (** typebuilder.go:80-109 [makeLeafType]. *)
  Definition leaf_type (t : term) (parent : string) (quant : tally) (kn : knowns) (st : tstate) : cres tstate :=
    match t with
    | TRule r =>
        match lookup r kn with
        | Some (KStack x p) => if String.eqb r "@" then COk (push parent (GStackRef x p) st) else CPanic
        | Some (KType ret) => if String.eqb r "@" then CPanic else COk (push parent (GRef r parent ret quant) st)
        | None => CPanic
        end
    | _ => COk (push parent (GUnnamed parent quant) st)
    end.

  (** typebuilder.go:50-59: whether the loop over the children of the new type ends with the stack addition. *)
  Fixpoint stack_addition (r : string) (need : bool) (cs : list gchild) : bool :=
    match cs with
    | [] => need
    | GStackRef x _ :: cs' => if String.eqb x r then false else stack_addition r true cs'
    | _ :: cs' => stack_addition r need cs'
    end.
  (** typebuilder.go:49-62: what follows the walk over the term of a rule; nil has no children. *)
  Definition finish_rule (r typ : string) (st : tstate) : cres tstate :=
    match lookup (go_type_name typ) (tmap st) with
    | None => CPanic
    | Some t => COk (if stack_addition r false (type_children t) then push typ (GStackRef r typ) st else st)
    end.

  (** typebuilder.go:41-66 [walkGrammar], given the walk over terms. *)
  Definition walk_rules (walk : term -> string -> tally -> knowns -> Z -> tstate -> cres tstate)
    (pre : string) (kn : knowns) : grammar -> tstate -> cres tstate :=
    fix go g st :=
      match g with
      | [] => COk st
      | (r, t) :: g' =>
          let typ := (pre ++ go_name r)%string in
          cbind (walk t typ want_one (aset "@"%string (KStack r typ) kn) (rand (drawn st)) (mkT (tmap st) (S (drawn st))))
                (fun st => cbind (finish_rule r typ st) (go g'))
      end.

  (** typebuilder.go:68-78 [handleSeq], 111-212 [walkTerm].  Reading a separator or the term of a name never
      looks at more than its head. *)
  Fixpoint walk_term (t : term) (parent : string) (quant : tally) (kn : knowns) (id : Z) (st : tstate) {struct t} : cres tstate :=
    let fix walk_seq (ts : list term) (st : tstate) : cres tstate :=
      match ts with
      | [] => COk st
      | t :: ts' => cbind (walk_term t parent quant kn id st) (walk_seq ts')
      end in
    match t with
    | TS _ | TRE _ | TRule _ => leaf_type t parent (push_single id quant) kn st
    | TREF i _ => COk (push parent (GBackRef i parent) st)
    | TScoped t g =>
        let kn := merge_known parent g kn in
        cbind (walk_rules walk_term parent kn g st) (walk_term t parent quant kn id)
    | TSeq ts | TStack ts => walk_seq ts st
    | TOneof ts =>
        (fix alts (ts : list term) (st : tstate) : cres tstate :=
           match ts with
           | [] => COk st
           | t :: ts' => cbind (walk_term t parent quant kn (rand (drawn st)) (mkT (tmap st) (S (drawn st)))) (alts ts')
           end) ts (push parent (GChoice parent) st)
    | TDelim t sep _ _ _ =>
        cbind (walk_term t parent want_all kn id st) (fun st =>
        match sep with
        | TNamed n u =>
            match u with
            | TS _ | TCut _ => COk (push parent (GToken n parent quant) st)
            | _ => walk_term sep parent want_all kn id st
            end
        | TRule r => walk_term sep (parent ++ go_name r)%string want_all kn id st
        | TCut _ | TS _ => COk st
        | _ => walk_term sep (parent ++ "Delim")%string want_all kn id st
        end)
    | TNamed n u =>
        let child := (parent ++ go_name n)%string in
        match u with
        | TRule r =>
            if String.eqb r "@" then
              match lookup r kn with
              | Some (KStack _ p) => COk (push parent (GStackRef n p) st)
              | _ => CPanic
              end
            else COk (push parent (GRef n parent r quant) st)
        | TRE _ | TS _ | TCut _ => COk (push parent (GToken n parent quant) st)
        | _ => cbind (walk_term u child quant kn id st) (fun st => COk (push parent (GRef n parent child quant) st))
        end
    | TQuant t _ mx => walk_term t parent (if Nat.eqb mx 1 then quant else want_all) kn id st
    | TCut t | TLookAhead t => walk_term t parent quant kn id st
    | TExtRef _ => COk st
    end.

  (** typebuilder.go:10-13 [makeTypesFromGrammar]; the order of [g] is the order in which Go ranges over the map. *)
  Definition make_types (g : grammar) : cres types :=
    cbind (walk_rules walk_term "" (merge_known "" g []) g (mkT [] 0)) (fun st => COk (tmap st)).

  (** * What is written for a type *)

  (** The bodies of the methods: what of the node they read, and what they make of it. *)
  Inductive method :=
  | MString                                (* the text of the node *)
  | MChoice                                (* ast.Choice *)
  | MOne (child : string) (ret : option string)  (* ast.First: a text, or a node of a type *)
  | MAll (child : string) (ret : option string)  (* ast.All *)
  | MRef (child : string).                 (* ast.First as it is *)
  (** [type name struct{ ast.Node }], and [func (recv) name()]. *)
  Inductive decl :=
  | DType (name : string)
  | DMethod (recv name : string) (m : method).

  (** types.go: the One and All methods of a count. *)
  Definition getters (recv suffix child : string) (ret : option string) (c : tally) : list decl :=
    (if t_one c then [DMethod recv ("One" ++ suffix) (MOne child ret)] else []) ++
    (if t_all c then [DMethod recv ("All" ++ suffix) (MAll child ret)] else []).
  (** types.go:168-332: the [String] methods; what the bodies do is in [Getters]. *)
  Definition child_decls (c : gchild) : list decl :=
    match c with
    | GChoice p => [DMethod (go_type_name p) "Choice" MChoice]
    | GStackRef n p => getters (go_type_name p) (go_name n) n (Some (go_type_name p)) want_all
    | GBackRef n p => [DMethod (go_type_name p) (go_name n ++ "Ref") (MRef n)]
    | GToken n p c => getters (go_type_name p) (go_name n) n None c
    | GUnnamed p c => getters (go_type_name p) "Token" "" None c
    | GRef n p r c => getters (go_type_name p) (go_name n) n (Some (go_type_name r)) c
    end%string.

  (** [strings.ToUpper], on ASCII. *)
  Definition upper (c : ascii) : ascii :=
    let n := nat_of_ascii c in if (Nat.leb 97 n && Nat.leb n 122)%bool then ascii_of_nat (n - 32) else c.
  Definition to_upper (s : string) : string := sb (map upper (bs s)).
  (** types.go:340-345: the order of the children; [sort.Slice] leaves open how it orders names that
      differ in case only. *)
  Fixpoint insert_child (x : gchild) (l : list gchild) : list gchild :=
    match l with
    | [] => [x]
    | y :: l' => match String.compare (to_upper (ident x)) (to_upper (ident y)) with
                 | Gt => y :: insert_child x l'
                 | _ => x :: l
                 end
    end.
  Definition sort_children (l : list gchild) : list gchild := fold_right insert_child [] l.

  (** types.go:150-159 and 337-353. *)
  Definition type_decls (t : gtype) : list decl :=
    match t with
    | GBasic n => [DType (go_type_name n); DMethod (go_type_name n) "String" MString]
    | GRule n cs => DType (go_type_name n) :: flat_map child_decls (sort_children cs)
    end.
  (** types.go:360-372 [Get]. *)
  Definition decls (tm : types) : list decl :=
    flat_map (fun k => match lookup k tm with Some t => type_decls t | None => [] end) (sort_strings (map fst tm)).
  (** types.go:378-380 [MakeTypes], from the grammar. *)
  Definition generated_types (g : grammar) : cres (list decl) := cbind (make_types g) (fun tm => COk (decls tm)).

  (** walkerinterface.go:49-79 [getTypeWalker]: the getters the walk function of a type calls, in order: the
      getter, whether it is All, the type of the children, and whether they are walked or only entered. *)
  Definition visit (tm : types) (c : gchild) : list (string * bool * string * bool) :=
    match c with
    | GStackRef n p => [(go_name n, true, go_type_name p, true)]
    | GRef n _ r c =>
        [(go_name n, t_all c, go_type_name r, match lookup (go_type_name r) tm with Some (GBasic _) => false | _ => true end)]
    | _ => []
    end.
  (** walkerinterface.go:17-47 [VisitorWriter.String]: the types with a walk function; the children are in the order
      that writing the types has left them in. *)
  Definition walks (tm : types) : list (string * list (string * bool * string * bool)) :=
    flat_map (fun k => match lookup k tm with
                       | Some (GRule n (c :: cs)) => [(go_type_name n, flat_map (visit tm) (sort_children (c :: cs)))]
                       | _ => []
                       end) (sort_strings (map fst tm)).
  Definition generated_walks (g : grammar) : cres (list (string * list (string * bool * string * bool))) :=
    cbind (make_types g) (fun tm => COk (walks tm)).
End Builder.
