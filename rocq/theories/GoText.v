(** A reader for the part of Go that methods are generated in, and what the methods do, apart from how they are generated.  What is not known counts as an error.
    Identifiers are ASCII; a line that ends with a word ends a statement (for keywords this is so only after return, break and the like). *)
From Verif Require Import Base Scanner Syntax Resolve Ast WbnfAst.

(** * Tokens *)
Inductive mark := LPar | RPar | LBrace | RBrace | LBrack | RBrack | Dot | Comma | Semi | Star | Amp | Becomes | Defines | Equals | Differs | AndAlso | OrElse | Colon | Bang | Bar.
Inductive piece := Name (x : bytes) | Digits (d : bytes) | Quoted (s : bytes) | Mark (m : mark).

Definition from_to (lo c hi : ascii) : bool := (Nat.leb (nat_of_ascii lo) (nat_of_ascii c) && Nat.leb (nat_of_ascii c) (nat_of_ascii hi))%bool.
Definition name_start (c : ascii) : bool := (from_to "a" c "z" || from_to "A" c "Z" || Ascii.eqb c "_")%bool.
Definition decimal (c : ascii) : bool := from_to "0" c "9".
Definition name_char (c : ascii) : bool := (name_start c || decimal c)%bool.
Definition dquote : ascii := ascii_of_nat 34.
Definition bslash : ascii := ascii_of_nat 92.
(** What may stand in a string in quotes as itself. *)
Definition bare_char (c : ascii) : bool := negb (Ascii.eqb c dquote || Ascii.eqb c bslash || Ascii.eqb c nl).

Definition mark_of (c : ascii) : option mark :=
  match c with
  | "("%char => Some LPar | ")"%char => Some RPar | "{"%char => Some LBrace | "}"%char => Some RBrace | "["%char => Some LBrack | "]"%char => Some RBrack
  | "."%char => Some Dot | ","%char => Some Comma | ";"%char => Some Semi | "*"%char => Some Star | "&"%char => Some Amp | "="%char => Some Becomes
  | ":"%char => Some Colon | "!"%char => Some Bang | "|"%char => Some Bar
  | _ => None
  end.
(** Marks of two characters. *)
Definition two (m : mark) (c : ascii) : option mark :=
  match m, c with
  | Colon, "="%char => Some Defines | Becomes, "="%char => Some Equals | Bang, "="%char => Some Differs | Amp, "&"%char => Some AndAlso | Bar, "|"%char => Some OrElse
  | _, _ => None
  end.
(** After which marks the end of a line ends a statement. *)
Definition closes (m : mark) : bool := match m with RPar | RBrace | RBrack => true | _ => false end.

(** Where the reader is: between tokens (the flag tells whether the end of the line ends a statement), or in one, with what was read of it, backwards. *)
Inductive spot := Between (ends : bool) | InName (x : bytes) | InDigits (d : bytes) | InQuoted (s : bytes) | InMark (m : mark).

Definition begin (ends : bool) (c : ascii) : option (list piece * spot) :=
  if name_start c then Some ([], InName [c])
  else if decimal c then Some ([], InDigits [c])
  else if Ascii.eqb c dquote then Some ([], InQuoted [])
  else if (Ascii.eqb c " " || Ascii.eqb c (ascii_of_nat 9))%bool then Some ([], Between ends)
  else if Ascii.eqb c nl then Some (if ends then [Mark Semi] else [], Between false)
  else match mark_of c with Some m => Some ([], InMark m) | None => None end.
Definition then_begin (p : piece) (ends : bool) (c : ascii) : option (list piece * spot) :=
  match begin ends c with Some (ps, s) => Some (p :: ps, s) | None => None end.
Definition step (s : spot) (c : ascii) : option (list piece * spot) :=
  match s with
  | Between ends => begin ends c
  | InName x => if name_char c then Some ([], InName (c :: x)) else then_begin (Name (rev x)) true c
  | InDigits d => if decimal c then Some ([], InDigits (c :: d)) else if name_start c then None else then_begin (Digits (rev d)) true c
  | InQuoted x => if Ascii.eqb c dquote then Some ([Quoted (rev x)], Between true) else if bare_char c then Some ([], InQuoted (c :: x)) else None
  | InMark m => match two m c with Some m' => Some ([Mark m'], Between false) | None => then_begin (Mark m) (closes m) c end
  end.
Fixpoint pieces (s : spot) (b : bytes) : option (list piece * spot) :=
  match b with
  | [] => Some ([], s)
  | c :: b' => match step s c with
               | Some (ps, s') => match pieces s' b' with Some (ps', s'') => Some (ps ++ ps', s'') | None => None end
               | None => None
               end
  end.
(** The tokens of a text that ends between two tokens. *)
Definition go_tokens (b : bytes) : option (list piece) :=
  match pieces (Between false) (b ++ [nl]) with Some (ps, Between _) => Some ps | _ => None end.

(** * Syntax *)
Inductive gotype := TyName (x : bytes) | TyMember (p x : bytes) | TyPtr (t : gotype) | TySlice (t : gotype).
Inductive expr :=
| EQuoted (s : bytes) | ENum (d : bytes) | EName (x : bytes)
| EDot (e : expr) (x : bytes) | EApply (e : expr) (args : list expr) | EStruct (T : bytes) (e : expr) | EAssert (e : expr) (t : gotype)
| EAddr (e : expr) | EEqual (a b : expr) | EDiffer (a b : expr) | EBoth (a b : expr) | EEither (a b : expr).
Inductive stmt :=
| SIf (names : list bytes) (init : option expr) (cond : expr) (body : list stmt)
| SReturn (e : expr)
| SVar (x : bytes) (t : gotype)
| SRange (names : list bytes) (e : expr) (body : list stmt)
| SAssign (x : bytes) (e : expr).
(** [type name struct { ast.Node }] and [func (var recv) name() result { body }]. *)
Inductive godecl :=
| GoType (name : bytes)
| GoFunc (var : option bytes) (pointer : bool) (recv name : bytes) (result : option gotype) (body : list stmt).

Definition is (w : string) (x : bytes) : bool := beqb x (bs w).

Fixpoint read_type (f : nat) (ps : list piece) : option (gotype * list piece) :=
  match f with
  | O => None
  | S f =>
      match ps with
      | Mark Star :: ps' => match read_type f ps' with Some (t, r) => Some (TyPtr t, r) | None => None end
      | Mark LBrack :: Mark RBrack :: ps' => match read_type f ps' with Some (t, r) => Some (TySlice t, r) | None => None end
      | Name p :: Mark Dot :: Name x :: r => Some (TyMember p x, r)
      | Name x :: r => Some (TyName x, r)
      | _ => None
      end
  end.

(** Expressions: either, both, comparisons, an address, an operand with what is done to it.  In the head of a statement a brace opens its body ([head]). *)
Fixpoint read_either (f : nat) (head : bool) (ps : list piece) {struct f} : option (expr * list piece) :=
  match f with
  | O => None
  | S f =>
      match read_both f head ps with
      | Some (a, Mark OrElse :: r) => match read_either f head r with Some (b, r') => Some (EEither a b, r') | None => None end
      | x => x
      end
  end
with read_both (f : nat) (head : bool) (ps : list piece) {struct f} : option (expr * list piece) :=
  match f with
  | O => None
  | S f =>
      match read_compare f head ps with
      | Some (a, Mark AndAlso :: r) => match read_both f head r with Some (b, r') => Some (EBoth a b, r') | None => None end
      | x => x
      end
  end
with read_compare (f : nat) (head : bool) (ps : list piece) {struct f} : option (expr * list piece) :=
  match f with
  | O => None
  | S f =>
      match read_unary f head ps with
      | Some (a, Mark Equals :: r) => match read_unary f head r with Some (b, r') => Some (EEqual a b, r') | None => None end
      | Some (a, Mark Differs :: r) => match read_unary f head r with Some (b, r') => Some (EDiffer a b, r') | None => None end
      | x => x
      end
  end
with read_unary (f : nat) (head : bool) (ps : list piece) {struct f} : option (expr * list piece) :=
  match f with
  | O => None
  | S f =>
      match ps with
      | Mark Amp :: r => match read_unary f head r with Some (e, r') => Some (EAddr e, r') | None => None end
      | Quoted s :: r => read_after f head (EQuoted s) r
      | Digits d :: r => read_after f head (ENum d) r
      | Name x :: Mark LBrace :: r =>
          if head then read_after f head (EName x) (Mark LBrace :: r)
          else match read_either f false r with Some (e, Mark RBrace :: r') => read_after f head (EStruct x e) r' | _ => None end
      | Name x :: r => read_after f head (EName x) r
      | _ => None
      end
  end
with read_after (f : nat) (head : bool) (e : expr) (ps : list piece) {struct f} : option (expr * list piece) :=
  match f with
  | O => None
  | S f =>
      match ps with
      | Mark Dot :: Name x :: r => read_after f head (EDot e x) r
      | Mark Dot :: Mark LPar :: r => match read_type f r with Some (t, Mark RPar :: r') => read_after f head (EAssert e t) r' | _ => None end
      | Mark LPar :: Mark RPar :: r => read_after f head (EApply e []) r
      | Mark LPar :: r => match read_args f r with Some (es, r') => read_after f head (EApply e es) r' | None => None end
      | _ => Some (e, ps)
      end
  end
with read_args (f : nat) (ps : list piece) {struct f} : option (list expr * list piece) :=
  match f with
  | O => None
  | S f =>
      match read_either f false ps with
      | Some (e, Mark Comma :: r) => match read_args f r with Some (es, r') => Some (e :: es, r') | None => None end
      | Some (e, Mark RPar :: r) => Some ([e], r)
      | _ => None
      end
  end.

(** Names separated by commas. *)
Fixpoint read_names (ps : list piece) : option (list bytes * list piece) :=
  match ps with
  | Name x :: Mark Comma :: r => match read_names r with Some (xs, r') => Some (x :: xs, r') | None => None end
  | Name x :: r => Some ([x], r)
  | _ => None
  end.
(** Statements up to the brace that closes them. *)
Fixpoint read_stmts (f : nat) (ps : list piece) {struct f} : option (list stmt * list piece) :=
  match f with
  | O => None
  | S f =>
      match ps with
      | Mark RBrace :: r => Some ([], r)
      | Mark Semi :: r => read_stmts f r
      | _ => match read_stmt f ps with
             | Some (s, Mark Semi :: r) => match read_stmts f r with Some (ss, r') => Some (s :: ss, r') | None => None end
             | Some (s, Mark RBrace :: r) => Some ([s], r)
             | _ => None
             end
      end
  end
with read_stmt (f : nat) (ps : list piece) {struct f} : option (stmt * list piece) :=
  match f with
  | O => None
  | S f =>
      match ps with
      | Name w :: r =>
          if is "return" w then match read_either f false r with Some (e, r') => Some (SReturn e, r') | None => None end
          else if is "var" w then
            match r with Name x :: r' => match read_type f r' with Some (t, r'') => Some (SVar x t, r'') | None => None end | _ => None end
          else if is "for" w then
            match read_names r with
            | Some (xs, Mark Defines :: Name k :: r') =>
                if is "range" k then
                  match read_either f true r' with
                  | Some (e, Mark LBrace :: r'') => match read_stmts f r'' with Some (ss, r3) => Some (SRange xs e ss, r3) | None => None end
                  | _ => None
                  end
                else None
            | _ => None
            end
          else if is "if" w then
            match read_names r with
            | Some (xs, Mark Defines :: r') =>
                match read_either f true r' with
                | Some (i, Mark Semi :: r'') =>
                    match read_either f true r'' with
                    | Some (c, Mark LBrace :: r3) => match read_stmts f r3 with Some (ss, r4) => Some (SIf xs (Some i) c ss, r4) | None => None end
                    | _ => None
                    end
                | _ => None
                end
            | _ =>
                match read_either f true r with
                | Some (c, Mark LBrace :: r3) => match read_stmts f r3 with Some (ss, r4) => Some (SIf [] None c ss, r4) | None => None end
                | _ => None
                end
            end
          else match r with
               | Mark Becomes :: r' => match read_either f false r' with Some (e, r'') => Some (SAssign w e, r'') | None => None end
               | _ => None
               end
      | _ => None
      end
  end.

(** Declarations, each ended by a semicolon. *)
Definition read_decl (f : nat) (ps : list piece) : option (godecl * list piece) :=
  match ps with
  | Name w :: r =>
      if is "type" w then
        match r with
        | Name x :: Name s :: Mark LBrace :: Name a :: Mark Dot :: Name n :: Mark RBrace :: r' =>
            if (is "struct" s && is "ast" a && is "Node" n)%bool then Some (GoType x, r') else None
        | _ => None
        end
      else if is "func" w then
        let method (var : option bytes) (pointer : bool) (recv : bytes) (r : list piece) :=
          match r with
          | Name x :: Mark LPar :: Mark RPar :: Mark LBrace :: r' =>
              match read_stmts f r' with Some (ss, r'') => Some (GoFunc var pointer recv x None ss, r'') | None => None end
          | Name x :: Mark LPar :: Mark RPar :: r' =>
              match read_type f r' with
              | Some (t, Mark LBrace :: r'') => match read_stmts f r'' with Some (ss, r3) => Some (GoFunc var pointer recv x (Some t) ss, r3) | None => None end
              | _ => None
              end
          | _ => None
          end in
        match r with
        | Mark LPar :: Name T :: Mark RPar :: r' => method None false T r'
        | Mark LPar :: Name v :: Name T :: Mark RPar :: r' => method (Some v) false T r'
        | Mark LPar :: Name v :: Mark Star :: Name T :: Mark RPar :: r' => method (Some v) true T r'
        | _ => None
        end
      else None
  | _ => None
  end.
Fixpoint read_decls (f : nat) (ps : list piece) : option (list godecl) :=
  match f with
  | O => None
  | S f =>
      match ps with
      | [] => Some []
      | _ => match read_decl f ps with
             | Some (d, Mark Semi :: r) => match read_decls f r with Some ds => Some (d :: ds) | None => None end
             | _ => None
             end
      end
  end.
(** A text holds these declarations. *)
Definition go_source (b : bytes) (ds : list godecl) : Prop := exists ps f, go_tokens b = Some ps /\ read_decls f ps = Some ds.

(** * What methods do *)
(** [VScan] is the scanner of a node, [VEntry] an entry of a branch, of type ast.Children, [VOne] one of type ast.One. *)
Inductive value :=
| VNil | VText (s : bytes) | VNum (z : Z) | VBool (b : bool) | VNode (n : anode) | VScan (n : anode) | VEntry (c : children anode) | VOne (n : anode)
| VMap (b : branch) | VSlice (l : list value) | VStruct (T : bytes) (node : value) | VPtr (v : value).
Definition env := list (bytes * value).
(** What cannot be run is [CDiv]. *)
Definition stuck {A} : cres A := CDiv.
Fixpoint find (x : bytes) (e : env) : option value := match e with [] => None | (y, v) :: e' => if beqb x y then Some v else find x e' end.
Fixpoint assign (x : bytes) (v : value) (e : env) : option env :=
  match e with
  | [] => None
  | (y, w) :: e' => if beqb x y then Some ((y, v) :: e') else match assign x v e' with Some e'' => Some ((y, w) :: e'') | None => None end
  end.

Definition equal_values (a b : value) : cres bool :=
  match a, b with
  | VNil, VNil => COk true
  | VNil, (VNode _ | VPtr _) | (VNode _ | VPtr _), VNil => COk false
  | VNum x, VNum y => COk (Z.eqb x y)
  | _, _ => stuck
  end.
(** The fields named Node: of the generated types, of pointers to them and of ast.One. *)
Definition field (v : value) (x : bytes) : cres value :=
  if is "Node" x then
    match v with VStruct _ n => COk n | VPtr (VStruct _ n) => COk n | VOne n => COk (VNode n) | VNil => CPanic | _ => stuck end
  else stuck.
(** Methods without arguments; a scanner is taken when its text is. *)
Definition call_method (v : value) (x : bytes) : cres value :=
  match v with
  | VNil => CPanic
  | VNode n => if is "Scanner" x then COk (VScan n) else stuck
  | VScan n => if is "String" x then cbind (node_text n) (fun t => COk (VText t)) else stuck
  | _ => stuck
  end.
Definition node_of (v : value) : option (option anode) := match v with VNil => Some None | VNode n => Some (Some n) | _ => None end.
Definition as_value (n : option anode) : value := match n with Some n => VNode n | None => VNil end.
(** The functions of package ast: ast/helpers.go. *)
Definition call_ast (x : bytes) (args : list value) : cres value :=
  match args with
  | [v; VText name] =>
      match node_of v with
      | Some n => if is "First" x then COk (as_value (first_of n (sb name)))
                  else if is "All" x then COk (VSlice (map VNode (all_of n (sb name)))) else stuck
      | None => stuck
      end
  | [v] => match node_of v with Some n => if is "Choice" x then cbind (choice_of n) (fun z => COk (VNum z)) else stuck | None => stuck end
  | _ => stuck
  end.
Definition call_builtin (x : bytes) (args : list value) : cres value :=
  match args with
  | [VSlice l; v] => if is "append" x then COk (VSlice (l ++ [v])) else stuck
  | [VMap b] => if is "len" x then COk (VNum (Z.of_nat (length b))) else stuck
  | _ => stuck
  end.
(** Type assertions: None if the value has another type. *)
Definition assert_type (v : value) (t : gotype) : cres (option value) :=
  match t with
  | TyMember p x =>
      if (is "ast" p && is "Branch" x)%bool then
        match v with VNode (ABranch b) => COk (Some (VMap b)) | VNode _ | VNil => COk None | _ => stuck end
      else if (is "ast" p && is "One" x)%bool then
        match v with VEntry (One n) => COk (Some (VOne n)) | VEntry (Many _) => COk None | _ => stuck end
      else stuck
  | _ => stuck
  end.
Definition number_of (d : bytes) : Z := fold_left (fun n c => 10 * n + (Z.of_nat (nat_of_ascii c) - 48))%Z d 0%Z.

Fixpoint eval (e : env) (x : expr) {struct x} : cres value :=
  match x with
  | EQuoted s => COk (VText s)
  | ENum d => COk (VNum (number_of d))
  | EName y => match find y e with Some v => COk v | None => if is "nil" y then COk VNil else stuck end
  | EDot a y => cbind (eval e a) (fun v => field v y)
  | EApply callee args =>
      let all := (fix all (l : list expr) : cres (list value) :=
                    match l with [] => COk [] | a :: l' => cbind (eval e a) (fun v => cbind (all l') (fun vs => COk (v :: vs))) end) in
      match callee with
      | EName y => match find y e with Some _ => stuck | None => cbind (all args) (call_builtin y) end
      | EDot (EName p) y =>
          match find p e with
          | Some v => match args with [] => call_method v y | _ => stuck end
          | None => if is "ast" p then cbind (all args) (call_ast y) else stuck
          end
      | EDot a y => match args with [] => cbind (eval e a) (fun v => call_method v y) | _ => stuck end
      | _ => stuck
      end
  | EStruct T a => cbind (eval e a) (fun v => COk (VStruct T v))
  | EAssert a t => cbind (eval e a) (fun v => cbind (assert_type v t) (fun r => match r with Some w => COk w | None => CPanic end))
  | EAddr a => cbind (eval e a) (fun v => match v with VStruct _ _ => COk (VPtr v) | _ => stuck end)
  | EEqual a b => cbind (eval e a) (fun v => cbind (eval e b) (fun w => cbind (equal_values v w) (fun r => COk (VBool r))))
  | EDiffer a b => cbind (eval e a) (fun v => cbind (eval e b) (fun w => cbind (equal_values v w) (fun r => COk (VBool (negb r)))))
  | EBoth a b => cbind (eval e a) (fun v => match v with VBool true => eval e b | VBool false => COk v | _ => stuck end)
  | EEither a b => cbind (eval e a) (fun v => match v with VBool false => eval e b | VBool true => COk v | _ => stuck end)
  end.

(** Going on, or leaving the method. *)
Inductive flow := Goes (e : env) | Leaves (v : value).
(** The variables of a block go when it ends. *)
Definition outside (e e' : env) : env := skipn (length e' - length e) e'.
(** [x := v], and [x, ok := v.(t)]. *)
Definition define (names : list bytes) (init : expr) (e : env) : cres env :=
  match names with
  | [x] => cbind (eval e init) (fun v => COk ((x, v) :: e))
  | [x; ok] =>
      match init with
      | EAssert a t => cbind (eval e a) (fun v => cbind (assert_type v t) (fun r =>
          COk ((ok, VBool (match r with Some _ => true | None => false end)) :: (x, match r with Some w => w | None => VNil end) :: e)))
      | _ => stuck
      end
  | _ => stuck
  end.
(** What is run through: slices in order; maps have no order. *)
Definition elements (v : value) : cres (list value) :=
  match v with
  | VSlice l => COk l
  | VMap [] => COk []
  | VMap [(_, c)] => COk [VEntry c]
  | _ => stuck
  end.

Fixpoint exec (s : stmt) (e : env) {struct s} : cres flow :=
  let run := (fix run (l : list stmt) (e : env) {struct l} : cres flow :=
                match l with
                | [] => COk (Goes e)
                | s :: l' => cbind (exec s e) (fun r => match r with Goes e' => run l' e' | Leaves v => COk (Leaves v) end)
                end) in
  let block (l : list stmt) (e outer : env) : cres flow :=
    cbind (run l e) (fun r => match r with Goes e' => COk (Goes (outside outer e')) | Leaves v => COk (Leaves v) end) in
  match s with
  | SReturn x => cbind (eval e x) (fun v => COk (Leaves v))
  | SVar x (TySlice _) => COk (Goes ((x, VSlice []) :: e))
  | SVar _ _ => stuck
  | SAssign x a => cbind (eval e a) (fun v => match assign x v e with Some e' => COk (Goes e') | None => stuck end)
  | SIf names init c body =>
      cbind (match init with Some i => define names i e | None => COk e end) (fun e1 =>
      cbind (eval e1 c) (fun v =>
      match v with VBool true => block body e1 e | VBool false => COk (Goes e) | _ => stuck end))
  | SRange names a body =>
      cbind (eval e a) (fun v => cbind (elements v) (fun vs =>
      match names with
      | [_; x] =>
          (fix loop (vs : list value) (e : env) {struct vs} : cres flow :=
             match vs with
             | [] => COk (Goes e)
             | w :: vs' => cbind (block body ((x, w) :: e) e) (fun r => match r with Goes e' => loop vs' e' | Leaves v => COk (Leaves v) end)
             end) vs e
      | _ => stuck
      end))
  end.
Fixpoint exec_all (l : list stmt) (e : env) : cres flow :=
  match l with
  | [] => COk (Goes e)
  | s :: l' => cbind (exec s e) (fun r => match r with Goes e' => exec_all l' e' | Leaves v => COk (Leaves v) end)
  end.
(** A method called on a value of its type around a node. *)
Definition call_decl (d : godecl) (n : anode) : cres value :=
  match d with
  | GoFunc (Some v) pointer T _ (Some _) body =>
      let c := VStruct T (VNode n) in
      cbind (exec_all body [(v, if pointer then VPtr c else c)]) (fun r => match r with Leaves v => COk v | Goes _ => stuck end)
  | _ => stuck
  end.
