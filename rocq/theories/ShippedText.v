(** The text of the types shipped in wbnf/wbnfgrammar.go. *)
From Verif Require Import Base.
Local Open Scope string_scope.

(** wbnfgrammar.go:132-696, as it is. *)
Definition shipped_text : string := "type AtomExtRefNode struct{ ast.Node }

func (AtomExtRefNode) isWalkableType() {}

func (c AtomExtRefNode) OneIdent() *IdentNode {
	if child := ast.First(c.Node, ""IDENT""); child != nil {
		return &IdentNode{child}
	}
	return nil
}

func (c AtomExtRefNode) OneToken() string {
	if child := ast.First(c.Node, """"); child != nil {
		return child.Scanner().String()
	}
	if b, ok := c.Node.(ast.Branch); ok && len(b) == 1 {
		for _, c := range b {
			if child := ast.First(c.(ast.One).Node, """"); child != nil {
				return child.Scanner().String()
			}
		}
	}
	return """"
}

type AtomNode struct{ ast.Node }

func (AtomNode) isWalkableType() {}
func (c AtomNode) Choice() int   { return ast.Choice(c.Node) }

func (c AtomNode) OneExtRef() *AtomExtRefNode {
	if child := ast.First(c.Node, ""ExtRef""); child != nil {
		return &AtomExtRefNode{child}
	}
	return nil
}

func (c AtomNode) OneIdent() *IdentNode {
	if child := ast.First(c.Node, ""IDENT""); child != nil {
		return &IdentNode{child}
	}
	return nil
}

func (c AtomNode) OneLookahead() *TermNode {
	if child := ast.First(c.Node, ""lookahead""); child != nil {
		return &TermNode{child}
	}
	return nil
}

func (c AtomNode) OneMacrocall() *MacrocallNode {
	if child := ast.First(c.Node, ""macrocall""); child != nil {
		return &MacrocallNode{child}
	}
	return nil
}

func (c AtomNode) OneRe() *ReNode {
	if child := ast.First(c.Node, ""RE""); child != nil {
		return &ReNode{child}
	}
	return nil
}

func (c AtomNode) OneRef() *RefNode {
	if child := ast.First(c.Node, ""REF""); child != nil {
		return &RefNode{child}
	}
	return nil
}

func (c AtomNode) OneStr() *StrNode {
	if child := ast.First(c.Node, ""STR""); child != nil {
		return &StrNode{child}
	}
	return nil
}

func (c AtomNode) OneTerm() *TermNode {
	if child := ast.First(c.Node, ""term""); child != nil {
		return &TermNode{child}
	}
	return nil
}

func (c AtomNode) OneToken() string {
	if child := ast.First(c.Node, """"); child != nil {
		return child.Scanner().String()
	}
	if b, ok := c.Node.(ast.Branch); ok && len(b) == 1 {
		for _, c := range b {
			if child := ast.First(c.(ast.One).Node, """"); child != nil {
				return child.Scanner().String()
			}
		}
	}
	return """"
}

func (c AtomNode) AllToken() []string {
	var out []string
	for _, child := range ast.All(c.Node, """") {
		out = append(out, child.Scanner().String())
	}
	return out
}

type CommentNode struct{ ast.Node }

func (CommentNode) isWalkableType() {}
func (c *CommentNode) String() string {
	if c == nil || c.Node == nil {
		return """"
	}
	return c.Node.Scanner().String()
}

type GrammarNode struct{ ast.Node }

func (GrammarNode) isWalkableType() {}
func (c GrammarNode) AllStmt() []StmtNode {
	var out []StmtNode
	for _, child := range ast.All(c.Node, ""stmt"") {
		out = append(out, StmtNode{child})
	}
	return out
}

type IdentNode struct{ ast.Node }

func (IdentNode) isWalkableType() {}
func (c *IdentNode) String() string {
	if c == nil || c.Node == nil {
		return """"
	}
	return c.Node.Scanner().String()
}

type IntNode struct{ ast.Node }

func (IntNode) isWalkableType() {}
func (c *IntNode) String() string {
	if c == nil || c.Node == nil {
		return """"
	}
	return c.Node.Scanner().String()
}

type MacrocallNode struct{ ast.Node }

func (MacrocallNode) isWalkableType() {}

func (c MacrocallNode) OneName() *IdentNode {
	if child := ast.First(c.Node, ""name""); child != nil {
		return &IdentNode{child}
	}
	return nil
}

func (c MacrocallNode) AllTerm() []TermNode {
	var out []TermNode
	for _, child := range ast.All(c.Node, ""term"") {
		out = append(out, TermNode{child})
	}
	return out
}

func (c MacrocallNode) OneToken() string {
	if child := ast.First(c.Node, """"); child != nil {
		return child.Scanner().String()
	}
	if b, ok := c.Node.(ast.Branch); ok && len(b) == 1 {
		for _, c := range b {
			if child := ast.First(c.(ast.One).Node, """"); child != nil {
				return child.Scanner().String()
			}
		}
	}
	return """"
}

func (c MacrocallNode) AllToken() []string {
	var out []string
	for _, child := range ast.All(c.Node, """") {
		out = append(out, child.Scanner().String())
	}
	return out
}

type NamedNode struct{ ast.Node }

func (NamedNode) isWalkableType() {}

func (c NamedNode) OneAtom() *AtomNode {
	if child := ast.First(c.Node, ""atom""); child != nil {
		return &AtomNode{child}
	}
	return nil
}

func (c NamedNode) OneIdent() *IdentNode {
	if child := ast.First(c.Node, ""IDENT""); child != nil {
		return &IdentNode{child}
	}
	return nil
}

func (c NamedNode) OneOp() string {
	if child := ast.First(c.Node, ""op""); child != nil {
		return ast.First(child, """").Scanner().String()
	}
	return """"
}

type PragmaImportNode struct{ ast.Node }

func (PragmaImportNode) isWalkableType() {}

func (c PragmaImportNode) OnePath() *PragmaImportPathNode {
	if child := ast.First(c.Node, ""path""); child != nil {
		return &PragmaImportPathNode{child}
	}
	return nil
}

func (c PragmaImportNode) OneToken() string {
	if child := ast.First(c.Node, """"); child != nil {
		return child.Scanner().String()
	}
	if b, ok := c.Node.(ast.Branch); ok && len(b) == 1 {
		for _, c := range b {
			if child := ast.First(c.(ast.One).Node, """"); child != nil {
				return child.Scanner().String()
			}
		}
	}
	return """"
}

type PragmaImportPathNode struct{ ast.Node }

func (PragmaImportPathNode) isWalkableType() {}
func (c PragmaImportPathNode) Choice() int   { return ast.Choice(c.Node) }

func (c PragmaImportPathNode) AllToken() []string {
	var out []string
	for _, child := range ast.All(c.Node, """") {
		out = append(out, child.Scanner().String())
	}
	return out
}

type PragmaMacrodefNode struct{ ast.Node }

func (PragmaMacrodefNode) isWalkableType() {}
func (c PragmaMacrodefNode) AllArgs() []IdentNode {
	var out []IdentNode
	for _, child := range ast.All(c.Node, ""args"") {
		out = append(out, IdentNode{child})
	}
	return out
}

func (c PragmaMacrodefNode) OneName() *IdentNode {
	if child := ast.First(c.Node, ""name""); child != nil {
		return &IdentNode{child}
	}
	return nil
}

func (c PragmaMacrodefNode) OneTerm() *TermNode {
	if child := ast.First(c.Node, ""term""); child != nil {
		return &TermNode{child}
	}
	return nil
}

func (c PragmaMacrodefNode) OneToken() string {
	if child := ast.First(c.Node, """"); child != nil {
		return child.Scanner().String()
	}
	if b, ok := c.Node.(ast.Branch); ok && len(b) == 1 {
		for _, c := range b {
			if child := ast.First(c.(ast.One).Node, """"); child != nil {
				return child.Scanner().String()
			}
		}
	}
	return """"
}

func (c PragmaMacrodefNode) AllToken() []string {
	var out []string
	for _, child := range ast.All(c.Node, """") {
		out = append(out, child.Scanner().String())
	}
	return out
}

type PragmaNode struct{ ast.Node }

func (PragmaNode) isWalkableType() {}
func (c PragmaNode) Choice() int   { return ast.Choice(c.Node) }

func (c PragmaNode) OneImport() *PragmaImportNode {
	if child := ast.First(c.Node, ""import""); child != nil {
		return &PragmaImportNode{child}
	}
	return nil
}

func (c PragmaNode) OneMacrodef() *PragmaMacrodefNode {
	if child := ast.First(c.Node, ""macrodef""); child != nil {
		return &PragmaMacrodefNode{child}
	}
	return nil
}

type ProdNode struct{ ast.Node }

func (ProdNode) isWalkableType() {}

func (c ProdNode) OneIdent() *IdentNode {
	if child := ast.First(c.Node, ""IDENT""); child != nil {
		return &IdentNode{child}
	}
	return nil
}

func (c ProdNode) AllTerm() []TermNode {
	var out []TermNode
	for _, child := range ast.All(c.Node, ""term"") {
		out = append(out, TermNode{child})
	}
	return out
}

func (c ProdNode) OneToken() string {
	if child := ast.First(c.Node, """"); child != nil {
		return child.Scanner().String()
	}
	if b, ok := c.Node.(ast.Branch); ok && len(b) == 1 {
		for _, c := range b {
			if child := ast.First(c.(ast.One).Node, """"); child != nil {
				return child.Scanner().String()
			}
		}
	}
	return """"
}

func (c ProdNode) AllToken() []string {
	var out []string
	for _, child := range ast.All(c.Node, """") {
		out = append(out, child.Scanner().String())
	}
	return out
}

type QuantNode struct{ ast.Node }

func (QuantNode) isWalkableType() {}
func (c QuantNode) Choice() int   { return ast.Choice(c.Node) }

func (c QuantNode) OneMax() *IntNode {
	if child := ast.First(c.Node, ""max""); child != nil {
		return &IntNode{child}
	}
	return nil
}

func (c QuantNode) OneMin() *IntNode {
	if child := ast.First(c.Node, ""min""); child != nil {
		return &IntNode{child}
	}
	return nil
}

func (c QuantNode) OneNamed() *NamedNode {
	if child := ast.First(c.Node, ""named""); child != nil {
		return &NamedNode{child}
	}
	return nil
}

func (c QuantNode) OneOp() string {
	if child := ast.First(c.Node, ""op""); child != nil {
		return ast.First(child, """").Scanner().String()
	}
	return """"
}

func (c QuantNode) OneOptLeading() string {
	if child := ast.First(c.Node, ""opt_leading""); child != nil {
		return ast.First(child, """").Scanner().String()
	}
	return """"
}

func (c QuantNode) OneOptTrailing() string {
	if child := ast.First(c.Node, ""opt_trailing""); child != nil {
		return ast.First(child, """").Scanner().String()
	}
	return """"
}

func (c QuantNode) OneToken() string {
	if child := ast.First(c.Node, """"); child != nil {
		return child.Scanner().String()
	}
	if b, ok := c.Node.(ast.Branch); ok && len(b) == 1 {
		for _, c := range b {
			if child := ast.First(c.(ast.One).Node, """"); child != nil {
				return child.Scanner().String()
			}
		}
	}
	return """"
}

func (c QuantNode) AllToken() []string {
	var out []string
	for _, child := range ast.All(c.Node, """") {
		out = append(out, child.Scanner().String())
	}
	return out
}

type ReNode struct{ ast.Node }

func (ReNode) isWalkableType() {}
func (c *ReNode) String() string {
	if c == nil || c.Node == nil {
		return """"
	}
	return c.Node.Scanner().String()
}

type RefNode struct{ ast.Node }

func (RefNode) isWalkableType() {}

func (c RefNode) OneDefault() *StrNode {
	if child := ast.First(c.Node, ""default""); child != nil {
		return &StrNode{child}
	}
	return nil
}

func (c RefNode) OneIdent() *IdentNode {
	if child := ast.First(c.Node, ""IDENT""); child != nil {
		return &IdentNode{child}
	}
	return nil
}

func (c RefNode) OneToken() string {
	if child := ast.First(c.Node, """"); child != nil {
		return child.Scanner().String()
	}
	if b, ok := c.Node.(ast.Branch); ok && len(b) == 1 {
		for _, c := range b {
			if child := ast.First(c.(ast.One).Node, """"); child != nil {
				return child.Scanner().String()
			}
		}
	}
	return """"
}

type StmtNode struct{ ast.Node }

func (StmtNode) isWalkableType() {}
func (c StmtNode) Choice() int   { return ast.Choice(c.Node) }

func (c StmtNode) OneComment() *CommentNode {
	if child := ast.First(c.Node, ""COMMENT""); child != nil {
		return &CommentNode{child}
	}
	return nil
}

func (c StmtNode) OnePragma() *PragmaNode {
	if child := ast.First(c.Node, ""pragma""); child != nil {
		return &PragmaNode{child}
	}
	return nil
}

func (c StmtNode) OneProd() *ProdNode {
	if child := ast.First(c.Node, ""prod""); child != nil {
		return &ProdNode{child}
	}
	return nil
}

type StrNode struct{ ast.Node }

func (StrNode) isWalkableType() {}
func (c *StrNode) String() string {
	if c == nil || c.Node == nil {
		return """"
	}
	return c.Node.Scanner().String()
}

type TermNode struct{ ast.Node }

func (TermNode) isWalkableType() {}
func (c TermNode) AllGrammar() []GrammarNode {
	var out []GrammarNode
	for _, child := range ast.All(c.Node, ""grammar"") {
		out = append(out, GrammarNode{child})
	}
	return out
}

func (c TermNode) OneNamed() *NamedNode {
	if child := ast.First(c.Node, ""named""); child != nil {
		return &NamedNode{child}
	}
	return nil
}

func (c TermNode) OneOp() string {
	if child := ast.First(c.Node, ""op""); child != nil {
		return ast.First(child, """").Scanner().String()
	}
	return """"
}

func (c TermNode) AllQuant() []QuantNode {
	var out []QuantNode
	for _, child := range ast.All(c.Node, ""quant"") {
		out = append(out, QuantNode{child})
	}
	return out
}

func (c TermNode) AllTerm() []TermNode {
	var out []TermNode
	for _, child := range ast.All(c.Node, ""term"") {
		out = append(out, TermNode{child})
	}
	return out
}

func (c TermNode) AllToken() []string {
	var out []string
	for _, child := range ast.All(c.Node, """") {
		out = append(out, child.Scanner().String())
	}
	return out
}

type WrapReNode struct{ ast.Node }

func (WrapReNode) isWalkableType() {}
func (c *WrapReNode) String() string {
	if c == nil || c.Node == nil {
		return """"
	}
	return c.Node.Scanner().String()
}
".
