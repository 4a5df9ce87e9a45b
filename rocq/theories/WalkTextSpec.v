(** What a generated walk function has to do, one level of a walk, apart from its text. *)
From Verif Require Import Base Scanner Syntax Resolve Ast WbnfAst Walker GoText GoWalk.
Local Open Scope string_scope.

(** What is visited: the getter without its prefix, whether for all children, the type of the children and whether they are walked. *)
Definition visits := list (string * bool * string * bool).

Section Once.
  Context {St : Type}.
  Variable hooks : bytes -> option (value -> St -> cres (option stopper * St)).
  Variable walks : bytes -> value -> St -> cres (option stopper * St).
  Variable getter : bytes -> value -> cres value.

  (** A callback that is not set asks for nothing. *)
  Definition callback (f : string) (v : value) (st : St) : cres (option stopper * St) :=
    match hooks (bs f) with Some h => h v st | None => COk (None, st) end.
  (** The children a getter gives: all of them or at most one. *)
  Definition children_of (g : string) (many : bool) (v : value) : cres (list value) :=
    cbind (getter (bs ((if many then "All" else "One") ++ g)) v) (fun r =>
    match many, r with
    | _, VNil => COk []
    | true, VSlice l => COk l
    | false, VPtr x => COk [x]
    | _, _ => CDiv
    end).
  (** Visits one after the other, until one of them ends the walk of the node ([Some]). *)
  Fixpoint each {A} (visit : A -> St -> cres (option (option stopper) * St)) (l : list A) (st : St) : cres (option (option stopper) * St) :=
    match l with
    | [] => COk (None, st)
    | x :: l' => cbind (visit x st) (fun '(o, st) => match o with Some r => COk (Some r, st) | None => each visit l' st end)
    end.
  (** What a stopper of a callback or a child does: [Walker.reaction]. *)
  Definition react (c : cres (option stopper * St)) : cres (option (option stopper) * St) := cbind c (fun '(s, st) => COk (reaction s, st)).
  Definition walk_once (T : string) (vs : visits) (n : value) (st : St) : cres (option stopper * St) :=
    cbind (react (callback ("Enter" ++ T) n st)) (fun '(o, st) =>
    match o with
    | Some r => COk (r, st)
    | None =>
        cbind (each (fun (v : string * bool * string * bool) st => match v with (g, many, R, walked) =>
                 cbind (children_of g many n) (fun l => each (fun c st => react (if walked then walks (bs ("Walk" ++ R)) c st else callback ("Enter" ++ R) c st)) l st) end) vs st) (fun '(o, st) =>
        match o with
        | Some r => COk (r, st)
        | None => cbind (callback ("Exit" ++ T) n st) (fun '(s, st) => COk (match s with Some s => if abort s then Some s else None | None => None end, st))
        end)
    end).
End Once.

(** A Go function is the walk function of a type. *)
Definition walk_function (w : string * visits) (d : wfunc) : Prop :=
  wf_recv d = bs "WalkerOps" /\ wf_name d = bs ("Walk" ++ fst w) /\ wf_type d = bs (fst w) /\ wf_result d = bs "Stopper" /\
  forall St hooks walks getter n (st : St), call_func hooks walks getter d n st = walk_once hooks walks getter (fst w) (snd w) n st.

(** The callbacks that can be set: one to enter and one to leave each type. *)
Definition callbacks (ts : list (string * bool)) : list (bytes * bytes * bytes) :=
  flat_map (fun t => [(bs ("Enter" ++ fst t), bs (fst t), bs "Stopper"); (bs ("Exit" ++ fst t), bs (fst t), bs "Stopper")]) ts.
(** The method Walk sends a node to the walk function of its type, enters it if its type has no children and does nothing with other types.  No type has two cases. *)
Definition dispatches (ts : list (string * bool)) (d : wswitch) : Prop :=
  ws_recv d = bs "WalkerOps" /\ ws_name d = bs "Walk" /\ ws_type d = bs "IsWalkableType" /\ ws_result d = bs "Stopper" /\
  NoDup (map fst (ws_cases d)) /\
  forall St hooks walks getter T v (st : St),
    (In (T, true) ts -> call_switch hooks walks getter d (VStruct (bs T) v) st = walks (bs ("Walk" ++ T)) (VStruct (bs T) v) st) /\
    (In (T, false) ts -> call_switch hooks walks getter d (VStruct (bs T) v) st = callback hooks ("Enter" ++ T) (VStruct (bs T) v) st) /\
    (~ In T (map fst ts) -> call_switch hooks walks getter d (VStruct (bs T) v) st = COk (None, st)).
