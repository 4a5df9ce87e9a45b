(** The types shipped in wbnf/wbnfgrammar.go, which wbnf gen has written for wbnf's own grammar. *)
From Verif Require Import Base Scanner Syntax Types.

(** [strcase.ToCamel] of github.com/iancoleman/strcase on ASCII texts: the first letter, and letters after a digit or
    one of "_ -.", become capitals; characters that are no letters or digits are dropped.  The package
    is not part of the repository; only Examples and refutations use this definition. *)
Definition is_letter (c : ascii) : bool :=
  let n := nat_of_ascii c in (is_cap c || (Nat.leb 97 n && Nat.leb n 122))%bool.
Definition is_number (c : ascii) : bool := let n := nat_of_ascii c in (Nat.leb 48 n && Nat.leb n 57)%bool.
Fixpoint camel_from (cap : bool) (b : bytes) : bytes :=
  match b with
  | [] => []
  | c :: b' =>
      if is_letter c then (if cap then upper c else c) :: camel_from false b'
      else if is_number c then c :: camel_from true b'
      else camel_from (existsb (Ascii.eqb c) (bs "_ -.")) b'
  end.
Definition to_camel (s : string) : string := sb (camel_from true (bs s)).

(** wbnfgrammar.go:132-696, type by type and method by method. *)
Definition shipped_types : list decl :=
  [DType "AtomExtRefNode";
   DMethod "AtomExtRefNode" "OneIdent" (MOne "IDENT" (Some "IdentNode"));
   DMethod "AtomExtRefNode" "OneToken" (MOne "" None);
   DType "AtomNode";
   DMethod "AtomNode" "Choice" MChoice;
   DMethod "AtomNode" "OneExtRef" (MOne "ExtRef" (Some "AtomExtRefNode"));
   DMethod "AtomNode" "OneIdent" (MOne "IDENT" (Some "IdentNode"));
   DMethod "AtomNode" "OneLookahead" (MOne "lookahead" (Some "TermNode"));
   DMethod "AtomNode" "OneMacrocall" (MOne "macrocall" (Some "MacrocallNode"));
   DMethod "AtomNode" "OneRe" (MOne "RE" (Some "ReNode"));
   DMethod "AtomNode" "OneRef" (MOne "REF" (Some "RefNode"));
   DMethod "AtomNode" "OneStr" (MOne "STR" (Some "StrNode"));
   DMethod "AtomNode" "OneTerm" (MOne "term" (Some "TermNode"));
   DMethod "AtomNode" "OneToken" (MOne "" None);
   DMethod "AtomNode" "AllToken" (MAll "" None);
   DType "CommentNode";
   DMethod "CommentNode" "String" MString;
   DType "GrammarNode";
   DMethod "GrammarNode" "AllStmt" (MAll "stmt" (Some "StmtNode"));
   DType "IdentNode";
   DMethod "IdentNode" "String" MString;
   DType "IntNode";
   DMethod "IntNode" "String" MString;
   DType "MacrocallNode";
   DMethod "MacrocallNode" "OneName" (MOne "name" (Some "IdentNode"));
   DMethod "MacrocallNode" "AllTerm" (MAll "term" (Some "TermNode"));
   DMethod "MacrocallNode" "OneToken" (MOne "" None);
   DMethod "MacrocallNode" "AllToken" (MAll "" None);
   DType "NamedNode";
   DMethod "NamedNode" "OneAtom" (MOne "atom" (Some "AtomNode"));
   DMethod "NamedNode" "OneIdent" (MOne "IDENT" (Some "IdentNode"));
   DMethod "NamedNode" "OneOp" (MOne "op" None);
   DType "PragmaImportNode";
   DMethod "PragmaImportNode" "OnePath" (MOne "path" (Some "PragmaImportPathNode"));
   DMethod "PragmaImportNode" "OneToken" (MOne "" None);
   DType "PragmaImportPathNode";
   DMethod "PragmaImportPathNode" "Choice" MChoice;
   DMethod "PragmaImportPathNode" "AllToken" (MAll "" None);
   DType "PragmaMacrodefNode";
   DMethod "PragmaMacrodefNode" "AllArgs" (MAll "args" (Some "IdentNode"));
   DMethod "PragmaMacrodefNode" "OneName" (MOne "name" (Some "IdentNode"));
   DMethod "PragmaMacrodefNode" "OneTerm" (MOne "term" (Some "TermNode"));
   DMethod "PragmaMacrodefNode" "OneToken" (MOne "" None);
   DMethod "PragmaMacrodefNode" "AllToken" (MAll "" None);
   DType "PragmaNode";
   DMethod "PragmaNode" "Choice" MChoice;
   DMethod "PragmaNode" "OneImport" (MOne "import" (Some "PragmaImportNode"));
   DMethod "PragmaNode" "OneMacrodef" (MOne "macrodef" (Some "PragmaMacrodefNode"));
   DType "ProdNode";
   DMethod "ProdNode" "OneIdent" (MOne "IDENT" (Some "IdentNode"));
   DMethod "ProdNode" "AllTerm" (MAll "term" (Some "TermNode"));
   DMethod "ProdNode" "OneToken" (MOne "" None);
   DMethod "ProdNode" "AllToken" (MAll "" None);
   DType "QuantNode";
   DMethod "QuantNode" "Choice" MChoice;
   DMethod "QuantNode" "OneMax" (MOne "max" (Some "IntNode"));
   DMethod "QuantNode" "OneMin" (MOne "min" (Some "IntNode"));
   DMethod "QuantNode" "OneNamed" (MOne "named" (Some "NamedNode"));
   DMethod "QuantNode" "OneOp" (MOne "op" None);
   DMethod "QuantNode" "OneOptLeading" (MOne "opt_leading" None);
   DMethod "QuantNode" "OneOptTrailing" (MOne "opt_trailing" None);
   DMethod "QuantNode" "OneToken" (MOne "" None);
   DMethod "QuantNode" "AllToken" (MAll "" None);
   DType "ReNode";
   DMethod "ReNode" "String" MString;
   DType "RefNode";
   DMethod "RefNode" "OneDefault" (MOne "default" (Some "StrNode"));
   DMethod "RefNode" "OneIdent" (MOne "IDENT" (Some "IdentNode"));
   DMethod "RefNode" "OneToken" (MOne "" None);
   DType "StmtNode";
   DMethod "StmtNode" "Choice" MChoice;
   DMethod "StmtNode" "OneComment" (MOne "COMMENT" (Some "CommentNode"));
   DMethod "StmtNode" "OnePragma" (MOne "pragma" (Some "PragmaNode"));
   DMethod "StmtNode" "OneProd" (MOne "prod" (Some "ProdNode"));
   DType "StrNode";
   DMethod "StrNode" "String" MString;
   DType "TermNode";
   DMethod "TermNode" "AllGrammar" (MAll "grammar" (Some "GrammarNode"));
   DMethod "TermNode" "OneNamed" (MOne "named" (Some "NamedNode"));
   DMethod "TermNode" "OneOp" (MOne "op" None);
   DMethod "TermNode" "AllQuant" (MAll "quant" (Some "QuantNode"));
   DMethod "TermNode" "AllTerm" (MAll "term" (Some "TermNode"));
   DMethod "TermNode" "AllToken" (MAll "" None);
   DType "WrapReNode";
   DMethod "WrapReNode" "String" MString
  ]%string.
