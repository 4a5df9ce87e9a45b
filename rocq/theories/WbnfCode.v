(** wbnf/wbnfgrammar.go:11-108, the expression in front of [.Compile(nil)], as it is in the file. *)
From Verif Require Import Base.
Definition wbnf_code : bytes := bs
"parser.Grammar{"".wrapRE"": parser.RE(`\s*()\s*`),
		""COMMENT"": parser.RE(`//.*$|(?s:/\*(?:[^*]|\*+[^*/])\*/)`),
		""IDENT"":   parser.RE(`@|\.?[A-Za-z_]\w*`),
		""INT"":     parser.RE(`\d+`),
		""RE"":      parser.RE(`/{(?:\\.|{(?:(?:\d+(?:,\d*)?|,\d+)\})?|\[(?:\\.|\[:^?[a-z]+:\]|[^\]])+]|[^\\{\}])*\}|(?:(?:\[(?:\\.|\[:^?[a-z]+:\]|[^\]])+]|\\[pP](?:[a-z]|\{[a-zA-Z_]+\})|\\[a-zA-Z]|[.^$])(?:(?:[+*?]|\{\d+,?\d?\})\??)?)+`),
		""REF"": parser.Seq{parser.CutPoint{parser.S(`%`)},
			parser.Rule(`IDENT`),
			parser.Opt(parser.Seq{parser.S(`=`),
				parser.Eq(`default`,
					parser.Rule(`STR`))})},
		""STR"": parser.RE(`""(?:\\.|[^\\""])*""|'(?:\\.|[^\\'])*'|` + ""`"" + `(?:` + ""`"" + `` + ""`"" + `|[^` + ""`"" + `])*` + ""`"" + ``),
		""atom"": parser.Oneof{parser.Rule(`IDENT`),
			parser.Rule(`STR`),
			parser.Rule(`RE`),
			parser.Rule(`macrocall`),
			parser.Eq(`ExtRef`,
				parser.Seq{parser.CutPoint{parser.S(`%%`)},
					parser.Rule(`IDENT`)}),
			parser.Rule(`REF`),
			parser.Seq{parser.CutPoint{parser.S(`(?=`)},
				parser.Eq(`lookahead`,
					parser.Rule(`term`)),
				parser.S(`)`)},
			parser.Seq{parser.S(`(`),
				parser.Rule(`term`),
				parser.S(`)`)},
			parser.Seq{parser.S(`(`),
				parser.S(`)`)}},
		""grammar"": parser.Some(parser.Rule(`stmt`)),
		""macrocall"": parser.Seq{parser.CutPoint{parser.S(`%!`)},
			parser.Eq(`name`,
				parser.Rule(`IDENT`)),
			parser.S(`(`),
			parser.Delim{Term: parser.Opt(parser.Rule(`term`)),
				Sep: parser.S(`,`)},
			parser.S(`)`)},
		""named"": parser.Seq{parser.Opt(parser.Seq{parser.Rule(`IDENT`),
			parser.Eq(`op`,
				parser.S(`=`))}),
			parser.Rule(`atom`)},
		""pragma"": parser.ScopedGrammar{Term: parser.Oneof{parser.Rule(`import`),
			parser.Rule(`macrodef`)},
			Grammar: parser.Grammar{"".wrapRE"": parser.RE(`\s*()\s*`),
				""import"": parser.Seq{parser.CutPoint{parser.S(`.import`)},
					parser.Eq(`path`,
						parser.Delim{Term: parser.Oneof{parser.CutPoint{parser.S(`..`)},
							parser.CutPoint{parser.S(`.`)},
							parser.RE(`[a-zA-Z0-9.:]+`)},
							Sep:             parser.S(`/`),
							CanStartWithSep: true}),
					parser.Opt(parser.CutPoint{parser.S(`;`)})},
				""macrodef"": parser.Seq{parser.CutPoint{parser.S(`.macro`)},
					parser.Eq(`name`,
						parser.Rule(`IDENT`)),
					parser.S(`(`),
					parser.Delim{Term: parser.Opt(parser.Eq(`args`,
						parser.Rule(`IDENT`))),
						Sep: parser.S(`,`)},
					parser.S(`)`),
					parser.S(`{`),
					parser.Rule(`term`),
					parser.S(`}`),
					parser.Opt(parser.CutPoint{parser.S(`;`)})}}},
		""prod"": parser.Seq{parser.Rule(`IDENT`),
			parser.CutPoint{parser.S(`->`)},
			parser.Some(parser.Rule(`term`)),
			parser.CutPoint{parser.S(`;`)}},
		""quant"": parser.Oneof{parser.Eq(`op`,
			parser.RE(`[?*+]`)),
			parser.Seq{parser.S(`{`),
				parser.Opt(parser.Eq(`min`,
					parser.Rule(`INT`))),
				parser.S(`,`),
				parser.Opt(parser.Eq(`max`,
					parser.Rule(`INT`))),
				parser.S(`}`)},
			parser.Seq{parser.Eq(`op`,
				parser.RE(`<:|:>?`)),
				parser.Opt(parser.Eq(`opt_leading`,
					parser.S(`,`))),
				parser.Rule(`named`),
				parser.Opt(parser.Eq(`opt_trailing`,
					parser.S(`,`)))}},
		""stmt"": parser.Oneof{parser.Rule(`COMMENT`),
			parser.Rule(`prod`),
			parser.Rule(`pragma`)},
		""term"": parser.Stack{parser.Delim{Term: parser.Seq{parser.At,
			parser.Opt(parser.Seq{parser.S(`{`),
				parser.Rule(`grammar`),
				parser.S(`}`)})},
			Sep: parser.Eq(`op`,
				parser.S(`>`))},
			parser.Delim{Term: parser.At,
				Sep: parser.Eq(`op`,
					parser.S(`|`))},
			parser.Some(parser.At),
			parser.Seq{parser.Rule(`named`),
				parser.Any(parser.Rule(`quant`))}}}".
