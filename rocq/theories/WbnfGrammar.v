(** wbnf/wbnfgrammar.go:10-109: the grammar of the wbnf language itself. *)
From Verif Require Import Base Scanner Syntax.

Definition S_ (s : string) : term := TS (bs s).
Definition RE_ (s : string) : term := TRE (bs s).

(** wbnfgrammar.go:15, the RE rule. *)
Definition re_text : string :=
  "/{(?:\\.|{(?:(?:\d+(?:,\d*)?|,\d+)\})?|\[(?:\\.|\[:^?[a-z]+:\]|[^\]])+]|[^\\{\}])*\}|(?:(?:\[(?:\\.|\[:^?[a-z]+:\]|[^\]])+]|\\[pP](?:[a-z]|\{[a-zA-Z_]+\})|\\[a-zA-Z]|[.^$])(?:(?:[+*?]|\{\d+,?\d?\})\??)?)+".

(** wbnfgrammar.go:21, the STR rule. *)
Definition str_text : string := """(?:\\.|[^\\""])*""|'(?:\\.|[^\\'])*'|`(?:``|[^`])*`".

(** wbnfgrammar.go:11-108. *)
Definition wbnf_grammar : grammar :=
  [ (".wrapRE", RE_ "\s*()\s*");
    ("COMMENT", RE_ "//.*$|(?s:/\*(?:[^*]|\*+[^*/])\*/)");
    ("IDENT", RE_ "@|\.?[A-Za-z_]\w*");
    ("INT", RE_ "\d+");
    ("RE", RE_ re_text);
    ("REF", TSeq [TCut (S_ "%"); TRule "IDENT"; Opt (TSeq [S_ "="; Eq_ "default" (TRule "STR")])]);
    ("STR", RE_ str_text);
    ("atom", TOneof
      [ TRule "IDENT"; TRule "STR"; TRule "RE"; TRule "macrocall";
        Eq_ "ExtRef" (TSeq [TCut (S_ "%%"); TRule "IDENT"]);
        TRule "REF";
        TSeq [TCut (S_ "(?="); Eq_ "lookahead" (TRule "term"); S_ ")"];
        TSeq [S_ "("; TRule "term"; S_ ")"];
        TSeq [S_ "("; S_ ")"] ]);
    ("grammar", Some_ (TRule "stmt"));
    ("macrocall", TSeq [TCut (S_ "%!"); Eq_ "name" (TRule "IDENT"); S_ "(";
                        NonAssoc (Opt (TRule "term")) (S_ ","); S_ ")"]);
    ("named", TSeq [Opt (TSeq [TRule "IDENT"; Eq_ "op" (S_ "=")]); TRule "atom"]);
    ("pragma", TScoped (TOneof [TRule "import"; TRule "macrodef"])
      [ (".wrapRE", RE_ "\s*()\s*");
        ("import", TSeq [TCut (S_ ".import");
           Eq_ "path" (TDelim (TOneof [TCut (S_ ".."); TCut (S_ "."); RE_ "[a-zA-Z0-9.:]+"])
                              (S_ "/") NonAssociative true false);
           Opt (TCut (S_ ";"))]);
        ("macrodef", TSeq [TCut (S_ ".macro"); Eq_ "name" (TRule "IDENT"); S_ "(";
           NonAssoc (Opt (Eq_ "args" (TRule "IDENT"))) (S_ ","); S_ ")"; S_ "{"; TRule "term"; S_ "}";
           Opt (TCut (S_ ";"))]) ]);
    ("prod", TSeq [TRule "IDENT"; TCut (S_ "->"); Some_ (TRule "term"); TCut (S_ ";")]);
    ("quant", TOneof
      [ Eq_ "op" (RE_ "[?*+]");
        TSeq [S_ "{"; Opt (Eq_ "min" (TRule "INT")); S_ ","; Opt (Eq_ "max" (TRule "INT")); S_ "}"];
        TSeq [Eq_ "op" (RE_ "<:|:>?"); Opt (Eq_ "opt_leading" (S_ ",")); TRule "named";
              Opt (Eq_ "opt_trailing" (S_ ","))] ]);
    ("stmt", TOneof [TRule "COMMENT"; TRule "prod"; TRule "pragma"]);
    ("term", TStack
      [ NonAssoc (TSeq [TRule StackDelim; Opt (TSeq [S_ "{"; TRule "grammar"; S_ "}"])]) (Eq_ "op" (S_ ">"));
        NonAssoc (TRule StackDelim) (Eq_ "op" (S_ "|"));
        Some_ (TRule StackDelim);
        TSeq [TRule "named"; Any (TRule "quant")] ]) ]%string.
