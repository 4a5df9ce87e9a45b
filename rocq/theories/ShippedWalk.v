(** The text of the walker shipped in wbnf/wbnfgrammar.go. *)
From Verif Require Import Base.
Local Open Scope string_scope.

(** wbnfgrammar.go:818-1443, as it is. *)
Definition shipped_walk_text : string := "func (w WalkerOps) WalkAtomExtRefNode(node AtomExtRefNode) Stopper {
	if fn := w.EnterAtomExtRefNode; fn != nil {
		if s := fn(node); s != nil {
			if s.ExitNode() {
				return nil
			} else if s.Abort() {
				return s
			}
		}
	}
	if child := node.OneIdent(); child != nil {
		child := *child
		if fn := w.EnterIdentNode; fn != nil {
			if s := fn(child); s != nil {
				if s.ExitNode() {
					return nil
				} else if s.Abort() {
					return s
				}
			}
		}
	}

	if fn := w.ExitAtomExtRefNode; fn != nil {
		if s := fn(node); s != nil && s.Abort() {
			return s
		}
	}
	return nil
}

func (w WalkerOps) WalkAtomNode(node AtomNode) Stopper {
	if fn := w.EnterAtomNode; fn != nil {
		if s := fn(node); s != nil {
			if s.ExitNode() {
				return nil
			} else if s.Abort() {
				return s
			}
		}
	}
	if child := node.OneExtRef(); child != nil {
		child := *child
		if s := w.WalkAtomExtRefNode(child); s != nil {
			if s.ExitNode() {
				return nil
			} else if s.Abort() {
				return s
			}
		}
	}
	if child := node.OneIdent(); child != nil {
		child := *child
		if fn := w.EnterIdentNode; fn != nil {
			if s := fn(child); s != nil {
				if s.ExitNode() {
					return nil
				} else if s.Abort() {
					return s
				}
			}
		}
	}
	if child := node.OneLookahead(); child != nil {
		child := *child
		if s := w.WalkTermNode(child); s != nil {
			if s.ExitNode() {
				return nil
			} else if s.Abort() {
				return s
			}
		}
	}
	if child := node.OneMacrocall(); child != nil {
		child := *child
		if s := w.WalkMacrocallNode(child); s != nil {
			if s.ExitNode() {
				return nil
			} else if s.Abort() {
				return s
			}
		}
	}
	if child := node.OneRe(); child != nil {
		child := *child
		if fn := w.EnterReNode; fn != nil {
			if s := fn(child); s != nil {
				if s.ExitNode() {
					return nil
				} else if s.Abort() {
					return s
				}
			}
		}
	}
	if child := node.OneRef(); child != nil {
		child := *child
		if s := w.WalkRefNode(child); s != nil {
			if s.ExitNode() {
				return nil
			} else if s.Abort() {
				return s
			}
		}
	}
	if child := node.OneStr(); child != nil {
		child := *child
		if fn := w.EnterStrNode; fn != nil {
			if s := fn(child); s != nil {
				if s.ExitNode() {
					return nil
				} else if s.Abort() {
					return s
				}
			}
		}
	}
	if child := node.OneTerm(); child != nil {
		child := *child
		if s := w.WalkTermNode(child); s != nil {
			if s.ExitNode() {
				return nil
			} else if s.Abort() {
				return s
			}
		}
	}

	if fn := w.ExitAtomNode; fn != nil {
		if s := fn(node); s != nil && s.Abort() {
			return s
		}
	}
	return nil
}

func (w WalkerOps) WalkGrammarNode(node GrammarNode) Stopper {
	if fn := w.EnterGrammarNode; fn != nil {
		if s := fn(node); s != nil {
			if s.ExitNode() {
				return nil
			} else if s.Abort() {
				return s
			}
		}
	}
	for _, child := range node.AllStmt() {
		if s := w.WalkStmtNode(child); s != nil {
			if s.ExitNode() {
				return nil
			} else if s.Abort() {
				return s
			}
		}
	}

	if fn := w.ExitGrammarNode; fn != nil {
		if s := fn(node); s != nil && s.Abort() {
			return s
		}
	}
	return nil
}

func (w WalkerOps) WalkMacrocallNode(node MacrocallNode) Stopper {
	if fn := w.EnterMacrocallNode; fn != nil {
		if s := fn(node); s != nil {
			if s.ExitNode() {
				return nil
			} else if s.Abort() {
				return s
			}
		}
	}
	if child := node.OneName(); child != nil {
		child := *child
		if fn := w.EnterIdentNode; fn != nil {
			if s := fn(child); s != nil {
				if s.ExitNode() {
					return nil
				} else if s.Abort() {
					return s
				}
			}
		}
	}
	for _, child := range node.AllTerm() {
		if s := w.WalkTermNode(child); s != nil {
			if s.ExitNode() {
				return nil
			} else if s.Abort() {
				return s
			}
		}
	}

	if fn := w.ExitMacrocallNode; fn != nil {
		if s := fn(node); s != nil && s.Abort() {
			return s
		}
	}
	return nil
}

func (w WalkerOps) WalkNamedNode(node NamedNode) Stopper {
	if fn := w.EnterNamedNode; fn != nil {
		if s := fn(node); s != nil {
			if s.ExitNode() {
				return nil
			} else if s.Abort() {
				return s
			}
		}
	}
	if child := node.OneAtom(); child != nil {
		child := *child
		if s := w.WalkAtomNode(child); s != nil {
			if s.ExitNode() {
				return nil
			} else if s.Abort() {
				return s
			}
		}
	}
	if child := node.OneIdent(); child != nil {
		child := *child
		if fn := w.EnterIdentNode; fn != nil {
			if s := fn(child); s != nil {
				if s.ExitNode() {
					return nil
				} else if s.Abort() {
					return s
				}
			}
		}
	}

	if fn := w.ExitNamedNode; fn != nil {
		if s := fn(node); s != nil && s.Abort() {
			return s
		}
	}
	return nil
}

func (w WalkerOps) WalkPragmaImportNode(node PragmaImportNode) Stopper {
	if fn := w.EnterPragmaImportNode; fn != nil {
		if s := fn(node); s != nil {
			if s.ExitNode() {
				return nil
			} else if s.Abort() {
				return s
			}
		}
	}
	if child := node.OnePath(); child != nil {
		child := *child
		if s := w.WalkPragmaImportPathNode(child); s != nil {
			if s.ExitNode() {
				return nil
			} else if s.Abort() {
				return s
			}
		}
	}

	if fn := w.ExitPragmaImportNode; fn != nil {
		if s := fn(node); s != nil && s.Abort() {
			return s
		}
	}
	return nil
}

func (w WalkerOps) WalkPragmaImportPathNode(node PragmaImportPathNode) Stopper {
	if fn := w.EnterPragmaImportPathNode; fn != nil {
		if s := fn(node); s != nil {
			if s.ExitNode() {
				return nil
			} else if s.Abort() {
				return s
			}
		}
	}

	if fn := w.ExitPragmaImportPathNode; fn != nil {
		if s := fn(node); s != nil && s.Abort() {
			return s
		}
	}
	return nil
}

func (w WalkerOps) WalkPragmaMacrodefNode(node PragmaMacrodefNode) Stopper {
	if fn := w.EnterPragmaMacrodefNode; fn != nil {
		if s := fn(node); s != nil {
			if s.ExitNode() {
				return nil
			} else if s.Abort() {
				return s
			}
		}
	}
	for _, child := range node.AllArgs() {
		if fn := w.EnterIdentNode; fn != nil {
			if s := fn(child); s != nil {
				if s.ExitNode() {
					return nil
				} else if s.Abort() {
					return s
				}
			}
		}
	}
	if child := node.OneName(); child != nil {
		child := *child
		if fn := w.EnterIdentNode; fn != nil {
			if s := fn(child); s != nil {
				if s.ExitNode() {
					return nil
				} else if s.Abort() {
					return s
				}
			}
		}
	}
	if child := node.OneTerm(); child != nil {
		child := *child
		if s := w.WalkTermNode(child); s != nil {
			if s.ExitNode() {
				return nil
			} else if s.Abort() {
				return s
			}
		}
	}

	if fn := w.ExitPragmaMacrodefNode; fn != nil {
		if s := fn(node); s != nil && s.Abort() {
			return s
		}
	}
	return nil
}

func (w WalkerOps) WalkPragmaNode(node PragmaNode) Stopper {
	if fn := w.EnterPragmaNode; fn != nil {
		if s := fn(node); s != nil {
			if s.ExitNode() {
				return nil
			} else if s.Abort() {
				return s
			}
		}
	}
	if child := node.OneImport(); child != nil {
		child := *child
		if s := w.WalkPragmaImportNode(child); s != nil {
			if s.ExitNode() {
				return nil
			} else if s.Abort() {
				return s
			}
		}
	}
	if child := node.OneMacrodef(); child != nil {
		child := *child
		if s := w.WalkPragmaMacrodefNode(child); s != nil {
			if s.ExitNode() {
				return nil
			} else if s.Abort() {
				return s
			}
		}
	}

	if fn := w.ExitPragmaNode; fn != nil {
		if s := fn(node); s != nil && s.Abort() {
			return s
		}
	}
	return nil
}

func (w WalkerOps) WalkProdNode(node ProdNode) Stopper {
	if fn := w.EnterProdNode; fn != nil {
		if s := fn(node); s != nil {
			if s.ExitNode() {
				return nil
			} else if s.Abort() {
				return s
			}
		}
	}
	if child := node.OneIdent(); child != nil {
		child := *child
		if fn := w.EnterIdentNode; fn != nil {
			if s := fn(child); s != nil {
				if s.ExitNode() {
					return nil
				} else if s.Abort() {
					return s
				}
			}
		}
	}
	for _, child := range node.AllTerm() {
		if s := w.WalkTermNode(child); s != nil {
			if s.ExitNode() {
				return nil
			} else if s.Abort() {
				return s
			}
		}
	}

	if fn := w.ExitProdNode; fn != nil {
		if s := fn(node); s != nil && s.Abort() {
			return s
		}
	}
	return nil
}

func (w WalkerOps) WalkQuantNode(node QuantNode) Stopper {
	if fn := w.EnterQuantNode; fn != nil {
		if s := fn(node); s != nil {
			if s.ExitNode() {
				return nil
			} else if s.Abort() {
				return s
			}
		}
	}
	if child := node.OneMax(); child != nil {
		child := *child
		if fn := w.EnterIntNode; fn != nil {
			if s := fn(child); s != nil {
				if s.ExitNode() {
					return nil
				} else if s.Abort() {
					return s
				}
			}
		}
	}
	if child := node.OneMin(); child != nil {
		child := *child
		if fn := w.EnterIntNode; fn != nil {
			if s := fn(child); s != nil {
				if s.ExitNode() {
					return nil
				} else if s.Abort() {
					return s
				}
			}
		}
	}
	if child := node.OneNamed(); child != nil {
		child := *child
		if s := w.WalkNamedNode(child); s != nil {
			if s.ExitNode() {
				return nil
			} else if s.Abort() {
				return s
			}
		}
	}

	if fn := w.ExitQuantNode; fn != nil {
		if s := fn(node); s != nil && s.Abort() {
			return s
		}
	}
	return nil
}

func (w WalkerOps) WalkRefNode(node RefNode) Stopper {
	if fn := w.EnterRefNode; fn != nil {
		if s := fn(node); s != nil {
			if s.ExitNode() {
				return nil
			} else if s.Abort() {
				return s
			}
		}
	}
	if child := node.OneDefault(); child != nil {
		child := *child
		if fn := w.EnterStrNode; fn != nil {
			if s := fn(child); s != nil {
				if s.ExitNode() {
					return nil
				} else if s.Abort() {
					return s
				}
			}
		}
	}
	if child := node.OneIdent(); child != nil {
		child := *child
		if fn := w.EnterIdentNode; fn != nil {
			if s := fn(child); s != nil {
				if s.ExitNode() {
					return nil
				} else if s.Abort() {
					return s
				}
			}
		}
	}

	if fn := w.ExitRefNode; fn != nil {
		if s := fn(node); s != nil && s.Abort() {
			return s
		}
	}
	return nil
}

func (w WalkerOps) WalkStmtNode(node StmtNode) Stopper {
	if fn := w.EnterStmtNode; fn != nil {
		if s := fn(node); s != nil {
			if s.ExitNode() {
				return nil
			} else if s.Abort() {
				return s
			}
		}
	}
	if child := node.OneComment(); child != nil {
		child := *child
		if fn := w.EnterCommentNode; fn != nil {
			if s := fn(child); s != nil {
				if s.ExitNode() {
					return nil
				} else if s.Abort() {
					return s
				}
			}
		}
	}
	if child := node.OnePragma(); child != nil {
		child := *child
		if s := w.WalkPragmaNode(child); s != nil {
			if s.ExitNode() {
				return nil
			} else if s.Abort() {
				return s
			}
		}
	}
	if child := node.OneProd(); child != nil {
		child := *child
		if s := w.WalkProdNode(child); s != nil {
			if s.ExitNode() {
				return nil
			} else if s.Abort() {
				return s
			}
		}
	}

	if fn := w.ExitStmtNode; fn != nil {
		if s := fn(node); s != nil && s.Abort() {
			return s
		}
	}
	return nil
}

func (w WalkerOps) WalkTermNode(node TermNode) Stopper {
	if fn := w.EnterTermNode; fn != nil {
		if s := fn(node); s != nil {
			if s.ExitNode() {
				return nil
			} else if s.Abort() {
				return s
			}
		}
	}
	for _, child := range node.AllGrammar() {
		if s := w.WalkGrammarNode(child); s != nil {
			if s.ExitNode() {
				return nil
			} else if s.Abort() {
				return s
			}
		}
	}
	if child := node.OneNamed(); child != nil {
		child := *child
		if s := w.WalkNamedNode(child); s != nil {
			if s.ExitNode() {
				return nil
			} else if s.Abort() {
				return s
			}
		}
	}
	for _, child := range node.AllQuant() {
		if s := w.WalkQuantNode(child); s != nil {
			if s.ExitNode() {
				return nil
			} else if s.Abort() {
				return s
			}
		}
	}
	for _, child := range node.AllTerm() {
		if s := w.WalkTermNode(child); s != nil {
			if s.ExitNode() {
				return nil
			} else if s.Abort() {
				return s
			}
		}
	}

	if fn := w.ExitTermNode; fn != nil {
		if s := fn(node); s != nil && s.Abort() {
			return s
		}
	}
	return nil
}".
(** wbnfgrammar.go:698-817, as it is. *)
Definition shipped_walker_text : string := "type WalkerOps struct {
	EnterAtomExtRefNode       func(AtomExtRefNode) Stopper
	ExitAtomExtRefNode        func(AtomExtRefNode) Stopper
	EnterAtomNode             func(AtomNode) Stopper
	ExitAtomNode              func(AtomNode) Stopper
	EnterCommentNode          func(CommentNode) Stopper
	ExitCommentNode           func(CommentNode) Stopper
	EnterGrammarNode          func(GrammarNode) Stopper
	ExitGrammarNode           func(GrammarNode) Stopper
	EnterIdentNode            func(IdentNode) Stopper
	ExitIdentNode             func(IdentNode) Stopper
	EnterIntNode              func(IntNode) Stopper
	ExitIntNode               func(IntNode) Stopper
	EnterMacrocallNode        func(MacrocallNode) Stopper
	ExitMacrocallNode         func(MacrocallNode) Stopper
	EnterNamedNode            func(NamedNode) Stopper
	ExitNamedNode             func(NamedNode) Stopper
	EnterPragmaImportNode     func(PragmaImportNode) Stopper
	ExitPragmaImportNode      func(PragmaImportNode) Stopper
	EnterPragmaImportPathNode func(PragmaImportPathNode) Stopper
	ExitPragmaImportPathNode  func(PragmaImportPathNode) Stopper
	EnterPragmaMacrodefNode   func(PragmaMacrodefNode) Stopper
	ExitPragmaMacrodefNode    func(PragmaMacrodefNode) Stopper
	EnterPragmaNode           func(PragmaNode) Stopper
	ExitPragmaNode            func(PragmaNode) Stopper
	EnterProdNode             func(ProdNode) Stopper
	ExitProdNode              func(ProdNode) Stopper
	EnterQuantNode            func(QuantNode) Stopper
	ExitQuantNode             func(QuantNode) Stopper
	EnterReNode               func(ReNode) Stopper
	ExitReNode                func(ReNode) Stopper
	EnterRefNode              func(RefNode) Stopper
	ExitRefNode               func(RefNode) Stopper
	EnterStmtNode             func(StmtNode) Stopper
	ExitStmtNode              func(StmtNode) Stopper
	EnterStrNode              func(StrNode) Stopper
	ExitStrNode               func(StrNode) Stopper
	EnterTermNode             func(TermNode) Stopper
	ExitTermNode              func(TermNode) Stopper
	EnterWrapReNode           func(WrapReNode) Stopper
	ExitWrapReNode            func(WrapReNode) Stopper
}

func (w WalkerOps) Walk(tree IsWalkableType) Stopper {
	switch node := tree.(type) {
	case AtomExtRefNode:
		return w.WalkAtomExtRefNode(node)

	case AtomNode:
		return w.WalkAtomNode(node)

	case CommentNode:
		if fn := w.EnterCommentNode; fn != nil {
			return fn(node)
		}

	case GrammarNode:
		return w.WalkGrammarNode(node)

	case IdentNode:
		if fn := w.EnterIdentNode; fn != nil {
			return fn(node)
		}

	case IntNode:
		if fn := w.EnterIntNode; fn != nil {
			return fn(node)
		}

	case MacrocallNode:
		return w.WalkMacrocallNode(node)

	case NamedNode:
		return w.WalkNamedNode(node)

	case PragmaImportNode:
		return w.WalkPragmaImportNode(node)

	case PragmaImportPathNode:
		return w.WalkPragmaImportPathNode(node)

	case PragmaMacrodefNode:
		return w.WalkPragmaMacrodefNode(node)

	case PragmaNode:
		return w.WalkPragmaNode(node)

	case ProdNode:
		return w.WalkProdNode(node)

	case QuantNode:
		return w.WalkQuantNode(node)

	case ReNode:
		if fn := w.EnterReNode; fn != nil {
			return fn(node)
		}

	case RefNode:
		return w.WalkRefNode(node)

	case StmtNode:
		return w.WalkStmtNode(node)

	case StrNode:
		if fn := w.EnterStrNode; fn != nil {
			return fn(node)
		}

	case TermNode:
		return w.WalkTermNode(node)

	case WrapReNode:
		if fn := w.EnterWrapReNode; fn != nil {
			return fn(node)
		}

	}
	return nil
}
".
