(** When Go accepts the declarations of [GoText]: types of expressions, variables that are used, functions that end with a return.
    The parts of the packages ast and parser that occur are known by their types: ast/node.go:24-71, ast/helpers.go:22-47, parser/scanner.go:52. *)
From Verif Require Import Base Scanner Syntax Resolve Ast WbnfAst GoText.

Definition t_string : gotype := TyName (bs "string").
Definition t_int : gotype := TyName (bs "int").
Definition t_bool : gotype := TyName (bs "bool").
Definition in_ast (x : string) : gotype := TyMember (bs "ast") (bs x).
Definition t_node : gotype := in_ast "Node".
Definition t_scanner : gotype := TyMember (bs "parser") (bs "Scanner").

Definition tenv := list (bytes * gotype).
Fixpoint known (x : bytes) (G : tenv) : option gotype := match G with [] => None | (y, t) :: G' => if beqb x y then Some t else known x G' end.
(** What nil is a value of. *)
Definition nilable (t : gotype) : Prop := match t with TyPtr _ | TySlice _ => True | _ => t = t_node end.
(** What may be asserted of values of an interface. *)
Inductive implements : gotype -> gotype -> Prop :=
| branch_is_node : implements t_node (in_ast "Branch")
| one_is_children : implements (in_ast "Children") (in_ast "One").

Section Typing.
  (** The struct types that are declared. *)
  Variable declared : bytes -> Prop.

  Inductive typed (G : tenv) : expr -> gotype -> Prop :=
  | ty_quoted : forall s, typed G (EQuoted s) t_string
  | ty_num : forall d, typed G (ENum d) t_int
  | ty_name : forall x t, known x G = Some t -> typed G (EName x) t
  | ty_field : forall e T, declared T -> typed G e (TyName T) -> typed G (EDot e (bs "Node")) t_node
  | ty_field_ptr : forall e T, declared T -> typed G e (TyPtr (TyName T)) -> typed G (EDot e (bs "Node")) t_node
  | ty_one : forall e, typed G e (in_ast "One") -> typed G (EDot e (bs "Node")) t_node
  | ty_scanner : forall e, typed G e t_node -> typed G (EApply (EDot e (bs "Scanner")) []) t_scanner
  | ty_text : forall e, typed G e t_scanner -> typed G (EApply (EDot e (bs "String")) []) t_string
  | ty_first : forall a b, known (bs "ast") G = None -> typed G a t_node -> typed G b t_string -> typed G (EApply (EDot (EName (bs "ast")) (bs "First")) [a; b]) t_node
  | ty_all : forall a b, known (bs "ast") G = None -> typed G a t_node -> typed G b t_string -> typed G (EApply (EDot (EName (bs "ast")) (bs "All")) [a; b]) (TySlice t_node)
  | ty_choice : forall a, known (bs "ast") G = None -> typed G a t_node -> typed G (EApply (EDot (EName (bs "ast")) (bs "Choice")) [a]) t_int
  | ty_append : forall a b t, known (bs "append") G = None -> typed G a (TySlice t) -> typed G b t -> typed G (EApply (EName (bs "append")) [a; b]) (TySlice t)
  | ty_len : forall a, known (bs "len") G = None -> typed G a (in_ast "Branch") -> typed G (EApply (EName (bs "len")) [a]) t_int
  | ty_struct : forall T a, declared T -> typed G a t_node -> typed G (EStruct T a) (TyName T)
  | ty_assert : forall a i t, implements i t -> typed G a i -> typed G (EAssert a t) t
  | ty_addr : forall T a, typed G (EStruct T a) (TyName T) -> typed G (EAddr (EStruct T a)) (TyPtr (TyName T))
  | ty_equal : forall a b, typed G a t_int -> typed G b t_int -> typed G (EEqual a b) t_bool
  | ty_is_nil : forall a t, nilable t -> known (bs "nil") G = None -> typed G a t -> typed G (EEqual a (EName (bs "nil"))) t_bool
  | ty_not_nil : forall a t, nilable t -> known (bs "nil") G = None -> typed G a t -> typed G (EDiffer a (EName (bs "nil"))) t_bool
  | ty_both : forall a b, typed G a t_bool -> typed G b t_bool -> typed G (EBoth a b) t_bool
  | ty_either : forall a b, typed G a t_bool -> typed G b t_bool -> typed G (EEither a b) t_bool.
  (** A value for a variable or result of a type. *)
  Definition given_as (G : tenv) (e : expr) (t : gotype) : Prop := typed G e t \/ (e = EName (bs "nil") /\ known (bs "nil") G = None /\ nilable t).

  (** Types that can be spelled. *)
  Inductive there : gotype -> Prop :=
  | there_string : there t_string
  | there_int : there t_int
  | there_node : there t_node
  | there_struct : forall T, declared T -> there (TyName T)
  | there_ptr : forall t, there t -> there (TyPtr t)
  | there_slice : forall t, there t -> there (TySlice t).

  (** Whether a variable is used in an expression, or in statements. *)
  Fixpoint uses (x : bytes) (e : expr) : bool :=
    match e with
    | EQuoted _ | ENum _ => false
    | EName y => beqb x y
    | EDot e _ | EStruct _ e | EAssert e _ | EAddr e => uses x e
    | EApply e args => (uses x e || existsb (uses x) args)%bool
    | EEqual a b | EDiffer a b | EBoth a b | EEither a b => (uses x a || uses x b)%bool
    end.
  Fixpoint used (x : bytes) (s : stmt) : bool :=
    match s with
    | SIf _ init c body => ((match init with Some i => uses x i | None => false end) || uses x c || existsb (used x) body)%bool
    | SReturn e | SAssign _ e => uses x e
    | SVar _ _ => false
    | SRange _ e body => (uses x e || existsb (used x) body)%bool
    end.

  (** Statements that may return a result of a type; the variables after them. *)
  Inductive checks (res : gotype) : tenv -> stmt -> tenv -> Prop :=
  | ck_return : forall G e, given_as G e res -> checks res G (SReturn e) G
  | ck_var : forall G x t, there t -> checks res G (SVar x t) ((x, t) :: G)
  | ck_assign : forall G x t e, known x G = Some t -> given_as G e t -> checks res G (SAssign x e) G
  | ck_if : forall G c body, typed G c t_bool -> checks_all res G body -> checks res G (SIf [] None c body) G
  | ck_if_one : forall G x i t c body, typed G i t -> (uses x c || existsb (used x) body)%bool = true ->
      typed ((x, t) :: G) c t_bool -> checks_all res ((x, t) :: G) body -> checks res G (SIf [x] (Some i) c body) G
  | ck_if_is : forall G x ok a i t c body, implements i t -> typed G a i -> (uses x c || existsb (used x) body)%bool = true -> (uses ok c || existsb (used ok) body)%bool = true ->
      typed ((ok, t_bool) :: (x, t) :: G) c t_bool -> checks_all res ((ok, t_bool) :: (x, t) :: G) body -> checks res G (SIf [x; ok] (Some (EAssert a t)) c body) G
  | ck_range : forall G x e t body, typed G e (TySlice t) -> existsb (used x) body = true -> checks_all res ((x, t) :: G) body -> checks res G (SRange [bs "_"; x] e body) G
  | ck_range_map : forall G x e body, typed G e (in_ast "Branch") -> existsb (used x) body = true -> checks_all res ((x, in_ast "Children") :: G) body -> checks res G (SRange [bs "_"; x] e body) G
  with checks_all (res : gotype) : tenv -> list stmt -> Prop :=
  | ck_none : forall G, checks_all res G []
  | ck_one : forall G s G' l, checks res G s G' -> match s with SVar x _ => existsb (used x) l = true | _ => True end -> checks_all res G' l -> checks_all res G (s :: l).

  Definition returns (l : list stmt) : Prop := exists l' e, l = l' ++ [SReturn e].
  Definition well_typed (d : godecl) : Prop :=
    match d with
    | GoType T => declared T
    | GoFunc None false T _ None [] => declared T
    | GoFunc (Some v) ptr T _ (Some res) body =>
        declared T /\ there res /\ checks_all res [(v, if ptr then TyPtr (TyName T) else TyName T)] body /\ returns body
    | _ => False
    end.
End Typing.

(** What may be declared only once. *)
Definition go_header (d : godecl) : bytes * option bytes := match d with GoType T => (T, None) | GoFunc _ _ T x _ _ => (T, Some x) end.
(** Declarations that Go accepts together. *)
Definition compiles (gs : list godecl) : Prop := Forall (well_typed (fun T => In (GoType T) gs)) gs /\ NoDup (map go_header gs).
