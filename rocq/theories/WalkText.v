(** Model of the text that cmd/codegen/walkerinterface.go writes for the walk functions of types, before it is formatted. *)
From Verif Require Import Base Scanner Syntax Resolve Codegen Types GenText.
Local Open Scope string_scope.

(** walkerinterface.go:53, 94, 98: what is done with a stopper [s], the same text in the three places.  Blanks at the ends of lines are those of the source. *)
Definition react_text : string := "if s.ExitNode() { return nil } else if s.Abort() { return s} }".
(** walkerinterface.go:85-103 [getWalkerFuncs]. *)
Definition visit_text (getter : string) (many : bool) (type : string) (walked : bool) : string :=
  (if many then "for _, child := range node.All" ++ getter ++ "() {" ++ newline
   else "if child := node.One" ++ getter ++ "(); child != nil { child := *child" ++ newline) ++
  (if walked then "if s := w.Walk" ++ type ++ "(child); s != nil { " ++ newline ++ tab ++ tab ++ tab ++ react_text ++ " }" ++ newline
   else "if fn := w.Enter" ++ type ++ "; fn != nil { " ++ newline ++ tab ++ tab ++ tab ++ "if s := fn(child); s != nil { " ++ newline ++
        tab ++ tab ++ tab ++ tab ++ react_text ++ " " ++ newline ++ tab ++ tab ++ tab ++ "}" ++ newline ++ tab ++ tab ++ "}" ++ newline).
(** walkerinterface.go:49-79 [getTypeWalker], for a type and its visits as in [Types.walks]. *)
Definition walk_text (w : string * list (string * bool * string * bool)) : string :=
  let T := fst w in
  "func (w WalkerOps) Walk" ++ T ++ "(node " ++ T ++ ") Stopper {" ++ newline ++ tab ++ "if fn := w.Enter" ++ T ++ "; fn != nil { " ++ newline ++
  tab ++ tab ++ "if s := fn(node); s != nil { " ++ react_text ++ newline ++ "}" ++ newline ++
  fold_right (fun v s => match v with (g, m, R, k) => visit_text g m R k ++ s end) "" (snd w) ++
  newline ++ tab ++ "if fn := w.Exit" ++ T ++ "; fn != nil { if s := fn(node); s != nil && s.Abort() { return s } }" ++ newline ++ tab ++ "return nil" ++ newline ++ "}" ++ newline.
(** walkerinterface.go:39-46: the functions, sorted as texts and joined by line breaks. *)
Definition walks_text (ws : list (string * list (string * bool * string * bool))) : string := join_lines (sort_strings (map walk_text ws)).

(** Types with whether they have children. *)
(** walkerinterface.go:14-15: the callbacks of a type. *)
Definition field_text (t : string * bool) : string :=
  tab ++ "Enter" ++ fst t ++ " func (" ++ fst t ++ ") Stopper" ++ newline ++ tab ++ "Exit" ++ fst t ++ " func (" ++ fst t ++ ") Stopper".
(** walkerinterface.go:26-34: the case of a type. *)
Definition case_text (t : string * bool) : string :=
  if snd t then tab ++ "case " ++ fst t ++ ": return w.Walk" ++ fst t ++ "(node)" ++ newline
  else tab ++ "case " ++ fst t ++ ": if fn := w.Enter" ++ fst t ++ "; fn != nil { return fn(node) }" ++ newline.
(** walkerinterface.go:17-47 [VisitorWriter.String]. *)
Definition walker_text (ts : list (string * bool)) (ws : list (string * list (string * bool * string * bool))) : string :=
  (newline ++ "type WalkerOps struct {" ++ newline ++ join_lines (sort_strings (map field_text ts)) ++ newline ++ "}" ++ newline) ++
  (newline ++ "func (w WalkerOps) Walk(tree IsWalkableType) Stopper {" ++ newline ++ tab ++ "switch node := tree.(type) {" ++ newline ++
   join_lines (sort_strings (map case_text ts)) ++ newline ++ "}" ++ newline ++ "return nil" ++ newline ++ "}" ++ newline) ++
  walks_text ws.
(** walkerinterface.go:19-20, 26-28: the types of the map. *)
Definition walked_types (camel : string -> string) (tm : types) : list (string * bool) :=
  map (fun kt : string * gtype => match snd kt with GBasic n => (go_type_name camel n, false) | GRule n cs => (go_type_name camel n, match cs with [] => false | _ => true end) end) tm.
