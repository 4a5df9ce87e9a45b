(** Model of the text that cmd/codegen/types.go writes for the types of a grammar, before it is formatted.  The types are those of [Types]. *)
From Verif Require Import Base Scanner Syntax Types.
Local Open Scope string_scope.

Definition quote_mark : string := String (ascii_of_nat 34) EmptyString.
Definition newline : string := String nl EmptyString.
Definition tab : string := String (ascii_of_nat 9) EmptyString.
(** A text of several lines. *)
Definition lines (l : list string) : string := fold_right (fun x s => x ++ newline ++ s) "" l.

Section Text.
  Variable camel : string -> string.
  Notation go_name := (go_name camel).
  Notation go_type_name := (go_type_name camel).

  (** idents.go:15-17 [IdentName]: the name in quotes, as it is. *)
  Definition ident_name (name : string) : string := quote_mark ++ name ++ quote_mark.

  (** types.go:150-160 [basicRule.String]. *)
  Definition basic_text (name : string) : string :=
    let T := go_type_name name in
    lines [""; "type " ++ T ++ " struct { ast.Node }"; "func (" ++ T ++ ") isWalkableType() {}"; "func (c *" ++ T ++ ") String() string {";
           tab ++ "if c == nil || c.Node == nil { return " ++ quote_mark ++ quote_mark ++ " }"; tab ++ "return c.Node.Scanner().String()"; "}"].
  (** types.go:172-187 [choice.String]. *)
  Definition choice_text (parent : string) : string := lines ["func (c " ++ go_type_name parent ++ ") Choice() int { return ast.Choice(c.Node) }"].
  (** types.go:211-215 [backRef.String]. *)
  Definition back_ref_text (name parent : string) : string :=
    lines ["func (c " ++ go_type_name parent ++ ") " ++ go_name name ++ "Ref() ast.Node { return ast.First(c.Node, " ++ quote_mark ++ name ++ quote_mark ++ ") }"].

  (** types.go:221-248 [namedToken.String]. *)
  Definition one_named_text (name parent : string) : string :=
    lines [""; "func (c " ++ go_type_name parent ++ ") One" ++ go_name name ++ "() string {";
           tab ++ "if child := ast.First(c.Node, " ++ ident_name name ++ "); child != nil {";
           tab ++ tab ++ "return ast.First(child, " ++ quote_mark ++ quote_mark ++ ").Scanner().String()"; tab ++ "}"; tab ++ "return " ++ quote_mark ++ quote_mark; "}"].
  Definition all_named_text (name parent : string) : string :=
    lines [""; "func (c " ++ go_type_name parent ++ ") All" ++ go_name name ++ "() []string {"; tab ++ "var out []string";
           tab ++ "for _, child := range ast.All(c.Node, " ++ ident_name name ++ ") {";
           tab ++ tab ++ "out = append(out, ast.First(child, " ++ quote_mark ++ quote_mark ++ ").Scanner().String())"; tab ++ "}"; tab ++ "return out"; "}"].
  (** types.go:254-295 [unnamedToken.String]. *)
  Definition one_token_text (parent : string) : string :=
    lines [""; "func (c " ++ go_type_name parent ++ ") OneToken() string {";
           tab ++ "if child := ast.First(c.Node, " ++ quote_mark ++ quote_mark ++ "); child != nil {"; tab ++ tab ++ "return child.Scanner().String()"; tab ++ "}";
           tab ++ "if b, ok := c.Node.(ast.Branch); ok && len(b) == 1 {"; tab ++ tab ++ "for _, c := range b {";
           tab ++ tab ++ tab ++ "if child := ast.First(c.(ast.One).Node, " ++ quote_mark ++ quote_mark ++ "); child != nil {";
           tab ++ tab ++ tab ++ tab ++ "return child.Scanner().String()"; tab ++ tab ++ tab ++ "}"; tab ++ tab ++ "}"; tab ++ "}"; tab ++ "return " ++ quote_mark ++ quote_mark; "}"].
  Definition all_token_text (parent : string) : string :=
    lines [""; "func (c " ++ go_type_name parent ++ ") AllToken() []string {"; tab ++ "var out []string";
           tab ++ "for _, child := range ast.All(c.Node, " ++ quote_mark ++ quote_mark ++ ") {"; tab ++ tab ++ "out = append(out, child.Scanner().String())"; tab ++ "}"; tab ++ "return out"; "}"].
  (** types.go:301-330 [namedRule.String]. *)
  Definition one_rule_text (name parent ret : string) : string :=
    lines [""; "func (c " ++ go_type_name parent ++ ") One" ++ go_name name ++ "() *" ++ go_type_name ret ++ " {";
           tab ++ "if child := ast.First(c.Node, " ++ ident_name name ++ "); child != nil {"; tab ++ tab ++ "return &" ++ go_type_name ret ++ "{child}"; tab ++ "}"; tab ++ "return nil"; "}"].
  Definition all_rule_text (name parent ret : string) : string :=
    lines ["func (c " ++ go_type_name parent ++ ") All" ++ go_name name ++ "() []" ++ go_type_name ret ++ " {"; tab ++ "var out []" ++ go_type_name ret;
           tab ++ "for _, child := range ast.All(c.Node, " ++ ident_name name ++ ") {"; tab ++ tab ++ "out = append(out, " ++ go_type_name ret ++ "{child})"; tab ++ "}"; tab ++ "return out"; "}"; ""].
  (** The texts of the getters that a count asks for: types.go:228-247, 265-293, 308-328. *)
  Definition counted (c : tally) (one all : string) : string := (if t_one c then one else "") ++ (if t_all c then all else "").

  (** The [String] methods of children; types.go:196-205 for references to the stack. *)
  Definition child_text (c : gchild) : string :=
    match c with
    | GChoice p => choice_text p
    | GStackRef n p => counted want_all (one_rule_text n p p) (all_rule_text n p p)
    | GBackRef n p => back_ref_text n p
    | GToken n p c => counted c (one_named_text n p) (all_named_text n p)
    | GUnnamed p c => counted c (one_token_text p) (all_token_text p)
    | GRef n p r c => counted c (one_rule_text n p r) (all_rule_text n p r)
    end.
  (** [strings.Join]. *)
  Fixpoint join_lines (l : list string) : string :=
    match l with
    | [] => ""
    | [x] => x
    | x :: l' => x ++ newline ++ join_lines l'
    end.
  (** types.go:337-353 [rule.String]. *)
  Definition rule_text (name : string) (cs : list gchild) : string :=
    lines ["type " ++ go_type_name name ++ " struct { ast.Node}"; " func (" ++ go_type_name name ++ ") isWalkableType() {}"] ++ join_lines (map child_text (sort_children cs)).
  Definition type_text (t : gtype) : string := match t with GBasic n => basic_text n | GRule n cs => rule_text n cs end.
  (** types.go:360-372 [Get] and template.go:48: the types one after the other. *)
  Definition types_text (tm : types) : string :=
    fold_right (fun k s => " " ++ match lookup k tm with Some t => type_text t | None => "" end ++ " " ++ s) "" (Codegen.sort_strings (map fst tm)).
End Text.
