(** The text of the wbnf grammar, wbnf/wbnfgrammar.go:1462-1524 [grammarGrammarSrc], and compile.go:16-20
    [unfakeBackquote], which turns the reversed prime (three bytes in UTF-8) into a backquote. *)
From Verif Require Import Base.

Definition grammar_grammar_raw : string := "
// Non-terminals
grammar -> stmt+;
stmt    -> COMMENT | prod | pragma;
prod    -> IDENT ""->"" term+ "";"";
term    -> (@ (""{"" grammar ""}"")? ):op="">""
         > @:op=""|""
         > @+
         > named quant*;
named   -> (IDENT op=""="")? atom;
quant   -> op=[?*+]
         | ""{"" min=INT? "","" max=INT? ""}""
         | op=/{<:|:>?} opt_leading="",""? named opt_trailing="",""?;
atom    -> IDENT
         | STR
         | RE
         | macrocall
         | ExtRef=(""%%"" IDENT)
         | REF
         | ""(?="" lookahead=term "")""
         | ""("" term "")""
         | ""("" "")"";

macrocall   -> ""%!"" name=IDENT ""("" term:"",""? "")"";
REF         -> ""%"" IDENT (""="" default=STR)?;

// Terminals
COMMENT -> /{ //.*$
            | (?s: /\* (?: [^*] | \*+[^*/] ) \*/ )
            };
IDENT   -> /{@|\.?[A-Za-z_]\w*};
INT     -> \d+;
STR     -> /{ "" (?: \\. | [^\\""] )* ""
            | ' (?: \\. | [^\\'] )* '
            | ‵ (?: ‵‵  | [^‵]   )* ‵
            };
RE      -> /{
             /{
               (?:
                 \\.
                 | { (?: (?: \d+(?:,\d*)? | ,\d+ ) \} )?
                 | \[ (?: \\. | \[:^?[a-z]+:\] | [^\]] )+ ]
                 | [^\\{\}]
               )*
             \}
           | (?:
               (?:
                 \[ (?: \\. | \[:^?[a-z]+:\] | [^\]] )+ ]
               | \\[pP](?:[a-z]|\{[a-zA-Z_]+\})
               | \\[a-zA-Z]
               | [.^$]
               )(?: (?:[+*?]|\{\d+,?\d?\}) \?? )?
             )+
           };

// Special
pragma  -> import | macrodef {
                import   -> "".import"" path=((""..""|"".""|[a-zA-Z0-9.:]+):,""/"") "";""?;
                macrodef -> "".macro"" name=IDENT ""("" args=IDENT:"",""? "")"" ""{"" term ""}"" "";""?;
            };

.wrapRE -> /{\s*()\s*};
".

Fixpoint unfake (s : bytes) : bytes :=
  match s with
  | a :: ((b :: c :: r) as r2) =>
      if (Nat.eqb (nat_of_ascii a) 226 && Nat.eqb (nat_of_ascii b) 128 && Nat.eqb (nat_of_ascii c) 181)%bool
      then "`"%char :: unfake r
      else a :: unfake r2
  | a :: r => a :: unfake r
  | [] => []
  end.
Definition grammar_grammar_src : bytes := unfake (bs grammar_grammar_raw).
