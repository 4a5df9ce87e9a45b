(** What the text of the generated types has to say when it is read as Go: the declarations of the model, with methods that do what the model says. *)
From Verif Require Import Base Scanner Syntax Resolve Compile Ast WbnfAst Codegen Types TypesSpec Getters GoText GoTyping.
Local Open Scope string_scope.
Local Open Scope list_scope.

(** The Go value of an answer: nodes are returned in the type of the getter, one by a pointer that may be nil. *)
Definition go_value (m : method) (a : answer) : value :=
  match a, m with
  | AText s, _ => VText s
  | ATexts l, _ => VSlice (map VText l)
  | ANumber z, _ => VNum z
  | ANode None, _ => VNil
  | ANode (Some n), MOne _ (Some T) => VPtr (VStruct (bs T) (VNode n))
  | ANode (Some n), _ => VNode n
  | ANodes l, MAll _ (Some T) => VSlice (map (fun n => VStruct (bs T) (VNode n)) l)
  | ANodes l, _ => VSlice (map VNode l)
  end.
(** The type of the results of a method. *)
Definition go_result (m : method) : gotype :=
  match m with
  | MString | MOne _ None => TyName (bs "string")
  | MChoice => TyName (bs "int")
  | MOne _ (Some T) => TyPtr (TyName (bs T))
  | MAll _ None => TySlice (TyName (bs "string"))
  | MAll _ (Some T) => TySlice (TyName (bs T))
  | MRef _ => TyMember (bs "ast") (bs "Node")
  end.

(** Go declarations for those of the model: a type comes with its mark for walkers, a method of a type gives for each node what the model says, panics included,
    and Go accepts it if its type and that of its results are declared. *)
Inductive declares : list decl -> list godecl -> Prop :=
| declares_none : declares [] []
| declares_type : forall T ds gs, declares ds gs ->
    declares (DType T :: ds) (GoType (bs T) :: GoFunc None false (bs T) (bs "isWalkableType") None [] :: gs)
| declares_method : forall T x m v ptr body ds gs,
    (forall n, call_decl (GoFunc (Some v) ptr (bs T) (bs x) (Some (go_result m)) body) n = cbind (answers m n) (fun a => COk (go_value m a))) ->
    (forall declared : bytes -> Prop, declared (bs T) -> (forall R, result_type m = Some R -> declared (bs R)) ->
      well_typed declared (GoFunc (Some v) ptr (bs T) (bs x) (Some (go_result m)) body)) ->
    declares ds gs ->
    declares (DMethod T x m :: ds) (GoFunc (Some v) ptr (bs T) (bs x) (Some (go_result m)) body :: gs).

(** Names that Go can spell: ASCII letters, digits and underscores, no digit first. *)
Definition spelled (x : string) : bool :=
  (forallb name_char (bs x) && match bs x with [] => true | c :: _ => name_start c end)%bool.
(** Names that mean themselves in quotes. *)
Definition quotable (x : string) : bool := forallb bare_char (bs x).

Section Fit.
  Variable camel : string -> string.
  Definition child_fits (c : gchild) : bool :=
    match c with
    | GChoice p | GUnnamed p _ => spelled (go_name camel p)
    | GStackRef n p | GBackRef n p => (spelled (go_name camel n) && spelled (go_name camel p) && quotable n)%bool
    | GToken n p _ => (spelled (go_name camel n) && spelled (go_name camel p) && quotable n && negb (String.eqb n ""))%bool
    | GRef n p r _ => (spelled (go_name camel n) && spelled (go_name camel p) && spelled (go_name camel r) && quotable n)%bool
    end.
  (** The Go names of types and children can be spelled, the names of children stand in quotes as they are. *)
  Definition type_fits (t : gtype) : bool :=
    match t with GBasic n => spelled (go_name camel n) | GRule n cs => (spelled (go_name camel n) && forallb child_fits cs)%bool end.
  Definition names_fit (tm : types) : bool := forallb (fun kt : string * gtype => type_fits (snd kt)) tm.
End Fit.
