(** A reader for walk functions in Go, and what they do, apart from how they are generated.  Tokens and expressions are those of [GoText]. *)
From Verif Require Import Base Scanner Syntax Resolve Ast WbnfAst Walker GoText.

(** * Syntax *)
(** [if x := i; c { a } else { b }], [for _, x := range e { a }], [x := *y], [return e]. *)
Inductive wstmt :=
| WIf (init : option (bytes * expr)) (c : expr) (a b : list wstmt)
| WRange (x : bytes) (e : expr) (body : list wstmt)
| WDeref (x y : bytes)
| WReturn (e : expr).
(** [func (w recv) name(p type) result { body }]. *)
Record wfunc := mkWFunc { wf_self : bytes; wf_recv : bytes; wf_name : bytes; wf_param : bytes; wf_type : bytes; wf_result : bytes; wf_body : list wstmt }.

Fixpoint read_ws (f : nat) (ps : list piece) {struct f} : option (list wstmt * list piece) :=
  match f with
  | O => None
  | S f =>
      match ps with
      | Mark RBrace :: r => Some ([], r)
      | Mark Semi :: r => read_ws f r
      | _ => match read_w f ps with
             | Some (s, Mark Semi :: r) => match read_ws f r with Some (ss, r') => Some (s :: ss, r') | None => None end
             | Some (s, Mark RBrace :: r) => Some ([s], r)
             | _ => None
             end
      end
  end
with read_w (f : nat) (ps : list piece) {struct f} : option (wstmt * list piece) :=
  match f with
  | O => None
  | S f =>
      match ps with
      | Name w :: r =>
          if is "return" w then match read_either f false r with Some (e, r') => Some (WReturn e, r') | None => None end
          else if is "for" w then
            match r with
            | Name u :: Mark Comma :: Name x :: Mark Defines :: Name k :: r' =>
                if (is "_" u && is "range" k)%bool then
                  match read_either f true r' with
                  | Some (e, Mark LBrace :: r'') => match read_ws f r'' with Some (ss, r3) => Some (WRange x e ss, r3) | None => None end
                  | _ => None
                  end
                else None
            | _ => None
            end
          else if is "if" w then read_if f r
          else match r with
               | Mark Defines :: Mark Star :: Name y :: r' => Some (WDeref w y, r')
               | _ => None
               end
      | _ => None
      end
  end
with read_if (f : nat) (ps : list piece) {struct f} : option (wstmt * list piece) :=
  match f with
  | O => None
  | S f =>
      let body (init : option (bytes * expr)) (ps : list piece) :=
        match read_either f true ps with
        | Some (c, Mark LBrace :: r) =>
            match read_ws f r with
            | Some (a, Name e :: Name i :: r') =>
                if (is "else" e && is "if" i)%bool then match read_if f r' with Some (b, r'') => Some (WIf init c a [b], r'') | None => None end else None
            | Some (a, r') => Some (WIf init c a [], r')
            | None => None
            end
        | _ => None
        end in
      match ps with
      | Name x :: Mark Defines :: r => match read_either f true r with Some (i, Mark Semi :: r') => body (Some (x, i)) r' | _ => None end
      | _ => body None ps
      end
  end.
Definition read_func (f : nat) (ps : list piece) : option (wfunc * list piece) :=
  match ps with
  | Name k :: Mark LPar :: Name w :: Name o :: Mark RPar :: Name n :: Mark LPar :: Name p :: Name T :: Mark RPar :: Name r :: Mark LBrace :: rest =>
      if is "func" k then match read_ws f rest with Some (ss, rest') => Some (mkWFunc w o n p T r ss, rest') | None => None end else None
  | _ => None
  end.
Fixpoint read_funcs (f : nat) (ps : list piece) : option (list wfunc) :=
  match f with
  | O => None
  | S f =>
      match ps with
      | [] => Some []
      | _ => match read_func f ps with
             | Some (d, Mark Semi :: r) => match read_funcs f r with Some ds => Some (d :: ds) | None => None end
             | _ => None
             end
      end
  end.
(** A text holds these functions. *)
Definition go_funcs (b : bytes) (ds : list wfunc) : Prop := exists ps f, go_tokens b = Some ps /\ read_funcs f ps = Some ds.

(** * What they do *)
Section Run.
  Context {St : Type}.
  (** The callbacks that are set, the walk functions and the getters of types. *)
  Variable hooks : bytes -> option (value -> St -> cres (option stopper * St)).
  Variable walks : bytes -> value -> St -> cres (option stopper * St).
  Variable getter : bytes -> value -> cres value.

  (** [WSelf] is the walker, [WHook] a callback that is set.  What a getter returns may be nil, nodes in the struct types are not. *)
  Inductive wvalue := WNil | WPlain (v : value) | WStop (s : stopper) | WHook (f : bytes) | WSelf | WBool (b : bool).
  Definition wenv := list (bytes * wvalue).
  Fixpoint wfind (x : bytes) (e : wenv) : option wvalue := match e with [] => None | (y, v) :: e' => if beqb x y then Some v else wfind x e' end.
  Definition plain (v : value) : wvalue := match v with VNil => WNil | _ => WPlain v end.
  Definition stop (s : option stopper) : wvalue := match s with Some s => WStop s | None => WNil end.
  Definition pure (v : wvalue) (st : St) : cres (wvalue * St) := COk (v, st).
  Definition named_value (e : wenv) (x : bytes) (st : St) : cres (wvalue * St) :=
    match wfind x e with Some v => pure v st | None => if is "nil" x then pure WNil st else stuck end.
  (** Calls of callbacks, walk functions, getters and of the methods of a stopper. *)
  Definition wcall (v : wvalue) (m : option bytes) (args : list wvalue) (st : St) : cres (wvalue * St) :=
    match v, m, args with
    | WHook f, None, [WPlain n] => match hooks f with Some h => cbind (h n st) (fun '(s, st) => COk (stop s, st)) | None => stuck end
    | WSelf, Some m, [WPlain n] => cbind (walks m n st) (fun '(s, st) => COk (stop s, st))
    | WPlain n, Some m, [] => cbind (getter m n) (fun v => pure (plain v) st)
    | WStop s, Some m, [] => if is "ExitNode" m then pure (WBool (exit_node s)) st else if is "Abort" m then pure (WBool (abort s)) st else stuck
    | _, _, _ => stuck
    end.
  Definition args_of (e : wenv) (l : list expr) : option (list wvalue) :=
    match l with
    | [] => Some []
    | [EName y] => match wfind y e with Some v => Some [v] | None => None end
    | _ => None
    end.
  Definition differs (a b : wvalue) : option bool :=
    match a, b with
    | WNil, WNil => Some false
    | (WPlain _ | WStop _ | WHook _), WNil => Some true
    | _, _ => None
    end.
  Fixpoint weval (e : wenv) (x : expr) (st : St) {struct x} : cres (wvalue * St) :=
    match x with
    | EName y => named_value e y st
    | EDot (EName y) f => match wfind y e with Some WSelf => pure (match hooks f with Some _ => WHook f | None => WNil end) st | _ => stuck end
    | EApply (EName y) args => match wfind y e, args_of e args with Some v, Some vs => wcall v None vs st | _, _ => stuck end
    | EApply (EDot (EName y) m) args => match wfind y e, args_of e args with Some v, Some vs => wcall v (Some m) vs st | _, _ => stuck end
    | EDiffer a b => cbind (weval e a st) (fun '(v, st) => cbind (weval e b st) (fun '(w, st) => match differs v w with Some r => pure (WBool r) st | None => stuck end))
    | EBoth a b => cbind (weval e a st) (fun '(v, st) => match v with WBool true => weval e b st | WBool false => pure v st | _ => stuck end)
    | _ => stuck
    end.

  Inductive wflow := WGoes (e : wenv) | WLeaves (s : option stopper).
  Definition woutside (e e' : wenv) : wenv := skipn (length e' - length e) e'.
  Fixpoint wexec (s : wstmt) (e : wenv) (st : St) {struct s} : cres (wflow * St) :=
    let run := (fix run (l : list wstmt) (e : wenv) (st : St) {struct l} : cres (wflow * St) :=
                  match l with
                  | [] => COk (WGoes e, st)
                  | s :: l' => cbind (wexec s e st) (fun '(r, st) => match r with WGoes e' => run l' e' st | WLeaves v => COk (WLeaves v, st) end)
                  end) in
    let block (l : list wstmt) (e outer : wenv) (st : St) : cres (wflow * St) :=
      cbind (run l e st) (fun '(r, st) => match r with WGoes e' => COk (WGoes (woutside outer e'), st) | WLeaves v => COk (WLeaves v, st) end) in
    match s with
    | WReturn x => cbind (weval e x st) (fun '(v, st) => match v with WNil => COk (WLeaves None, st) | WStop s => COk (WLeaves (Some s), st) | _ => stuck end)
    | WDeref x y => match wfind y e with Some (WPlain (VPtr v)) => COk (WGoes ((x, WPlain v) :: e), st) | Some WNil => CPanic | _ => stuck end
    | WIf init c a b =>
        cbind (match init with Some (x, i) => cbind (weval e i st) (fun '(v, st) => COk ((x, v) :: e, st)) | None => COk (e, st) end) (fun '(e1, st) =>
        cbind (weval e1 c st) (fun '(v, st) => match v with WBool true => block a e1 e st | WBool false => block b e1 e st | _ => stuck end))
    | WRange x i body =>
        cbind (weval e i st) (fun '(v, st) =>
        let loop := (fix loop (vs : list value) (st : St) {struct vs} : cres (wflow * St) :=
             match vs with
             | [] => COk (WGoes e, st)
             | w :: vs' => cbind (block body ((x, WPlain w) :: e) e st) (fun '(r, st) => match r with WGoes _ => loop vs' st | WLeaves v => COk (WLeaves v, st) end)
             end) in
        match v with WPlain (VSlice l) => loop l st | WNil => COk (WGoes e, st) | _ => stuck end)
    end.
  Fixpoint wexec_all (l : list wstmt) (e : wenv) (st : St) : cres (wflow * St) :=
    match l with
    | [] => COk (WGoes e, st)
    | s :: l' => cbind (wexec s e st) (fun '(r, st) => match r with WGoes e' => wexec_all l' e' st | WLeaves v => COk (WLeaves v, st) end)
    end.
  (** A walk function called for a value of its type. *)
  Definition call_func (d : wfunc) (n : value) (st : St) : cres (option stopper * St) :=
    cbind (wexec_all (wf_body d) [(wf_param d, WPlain n); (wf_self d, WSelf)] st) (fun '(r, st) => match r with WLeaves s => COk (s, st) | WGoes _ => stuck end).
End Run.

(** * The walker around them *)
(** [type name struct { f func (T) R ... }], [func (w recv) name(p type) result { switch x := p.(type) { case T: s ... } rest }] and walk functions. *)
Record wswitch := mkWSwitch { ws_self : bytes; ws_recv : bytes; ws_name : bytes; ws_param : bytes; ws_type : bytes; ws_result : bytes; ws_var : bytes;
  ws_cases : list (bytes * wstmt); ws_rest : list wstmt }.
Record walker := mkWalker { wk_name : bytes; wk_fields : list (bytes * bytes * bytes); wk_switch : wswitch; wk_funcs : list wfunc }.
Fixpoint read_fields (ps : list piece) : option (list (bytes * bytes * bytes) * list piece) :=
  match ps with
  | Mark RBrace :: r => Some ([], r)
  | Name x :: Name k :: Mark LPar :: Name T :: Mark RPar :: Name R :: Mark Semi :: r =>
      if is "func" k then match read_fields r with Some (l, r') => Some ((x, T, R) :: l, r') | None => None end else None
  | _ => None
  end.
Fixpoint read_cases (f : nat) (ps : list piece) : option (list (bytes * wstmt) * list piece) :=
  match f with
  | O => None
  | S f =>
      match ps with
      | Mark RBrace :: r => Some ([], r)
      | Name c :: Name T :: Mark Colon :: r =>
          if is "case" c then
            match read_w f r with
            | Some (s, Mark Semi :: r') => match read_cases f r' with Some (l, r'') => Some ((T, s) :: l, r'') | None => None end
            | _ => None
            end
          else None
      | _ => None
      end
  end.
Definition read_switch (f : nat) (ps : list piece) : option (wswitch * list piece) :=
  match ps with
  | Name k :: Mark LPar :: Name w :: Name o :: Mark RPar :: Name n :: Mark LPar :: Name p :: Name T :: Mark RPar :: Name r :: Mark LBrace ::
    Name s :: Name x :: Mark Defines :: Name q :: Mark Dot :: Mark LPar :: Name t :: Mark RPar :: Mark LBrace :: rest =>
      if (is "func" k && is "switch" s && beqb q p && is "type" t)%bool then
        match read_cases f rest with
        | Some (cs, rest') => match read_ws f rest' with Some (ss, rest'') => Some (mkWSwitch w o n p T r x cs ss, rest'') | None => None end
        | None => None
        end
      else None
  | _ => None
  end.
Definition read_walker (f : nat) (ps : list piece) : option walker :=
  match ps with
  | Name k :: Name n :: Name s :: Mark LBrace :: r =>
      if (is "type" k && is "struct" s)%bool then
        match read_fields r with
        | Some (fs, Mark Semi :: r') =>
            match read_switch f r' with
            | Some (sw, Mark Semi :: r'') => match read_funcs f r'' with Some ds => Some (mkWalker n fs sw ds) | None => None end
            | _ => None
            end
        | _ => None
        end
      else None
  | _ => None
  end.
(** A text is that of this walker. *)
Definition go_walker (b : bytes) (w : walker) : Prop := exists ps f, go_tokens b = Some ps /\ read_walker f ps = Some w.

Section Switch.
  Context {St : Type}.
  Variable hooks : bytes -> option (value -> St -> cres (option stopper * St)).
  Variable walks : bytes -> value -> St -> cres (option stopper * St).
  Variable getter : bytes -> value -> cres value.
  (** The first case for the type of the value, then what follows unless that returns. *)
  Fixpoint case_of (T : bytes) (cs : list (bytes * wstmt)) : option wstmt := match cs with [] => None | (T', s) :: cs' => if beqb T T' then Some s else case_of T cs' end.
  Definition call_switch (d : wswitch) (v : value) (st : St) : cres (option stopper * St) :=
    let e := [(ws_param d, WPlain v); (ws_self d, WSelf)] in
    let rest st := cbind (wexec_all hooks walks getter (ws_rest d) e st) (fun '(r, st) => match r with WLeaves s => COk (s, st) | WGoes _ => stuck end) in
    match v with
    | VStruct T _ =>
        match case_of T (ws_cases d) with
        | Some s => cbind (wexec hooks walks getter s ((ws_var d, WPlain v) :: e) st) (fun '(r, st) => match r with WLeaves s => COk (s, st) | WGoes _ => rest st end)
        | None => rest st
        end
    | _ => stuck
    end.
End Switch.
