(** Model of the generated walker, wbnf/wbnfgrammar.go:698-1443.  The walk functions are all
    instances of one template (cmd/codegen/walkerinterface.go); here they are one function driven by the
    table [fields] of the children each of them visits, in the order of the code. *)
From Verif Require Import Base Scanner Syntax Resolve Ast WbnfAst.

(** The node types. *)
Inductive kind :=
| KAtomExtRef | KAtom | KComment | KGrammar | KIdent | KInt | KMacrocall | KNamed | KPragmaImport
| KPragmaImportPath | KPragmaMacrodef | KPragma | KProd | KQuant | KRe | KRef | KStmt | KStr | KTerm | KWrapRe.
(** Node types without a walk function: only their enter callback is called. *)
Definition leaf_kind (k : kind) : bool :=
  match k with KComment | KIdent | KInt | KRe | KStr | KWrapRe => true | _ => false end.

(** The children a walk function visits: name, whether all of them or the first, and type. *)
Definition fields (k : kind) : list (string * bool * kind) :=
  match k with
  | KAtomExtRef => [("IDENT", false, KIdent)]                                   (* 818-847 *)
  | KAtom => [("ExtRef", false, KAtomExtRef); ("IDENT", false, KIdent); ("lookahead", false, KTerm);
              ("macrocall", false, KMacrocall); ("RE", false, KRe); ("REF", false, KRef);
              ("STR", false, KStr); ("term", false, KTerm)]                     (* 849-952 *)
  | KGrammar => [("stmt", true, KStmt)]                                         (* 954-980 *)
  | KMacrocall => [("name", false, KIdent); ("term", true, KTerm)]              (* 982-1020 *)
  | KNamed => [("atom", false, KAtom); ("IDENT", false, KIdent)]                (* 1022-1061 *)
  | KPragmaImport => [("path", false, KPragmaImportPath)]                       (* 1063-1090 *)
  | KPragmaImportPath => []                                                     (* 1092-1109 *)
  | KPragmaMacrodef => [("args", true, KIdent); ("name", false, KIdent); ("term", false, KTerm)] (* 1111-1161 *)
  | KPragma => [("import", false, KPragmaImport); ("macrodef", false, KPragmaMacrodef)] (* 1163-1200 *)
  | KProd => [("IDENT", false, KIdent); ("term", true, KTerm)]                  (* 1202-1240 *)
  | KQuant => [("max", false, KInt); ("min", false, KInt); ("named", false, KNamed)] (* 1242-1293 *)
  | KRef => [("default", false, KStr); ("IDENT", false, KIdent)]                (* 1295-1336 *)
  | KStmt => [("COMMENT", false, KComment); ("pragma", false, KPragma); ("prod", false, KProd)] (* 1338-1387 *)
  | KTerm => [("grammar", true, KGrammar); ("named", false, KNamed); ("quant", true, KQuant);
              ("term", true, KTerm)]                                            (* 1389-1443 *)
  | KComment | KIdent | KInt | KRe | KStr | KWrapRe => []
  end%string.
Definition of_option {A} (o : option A) : list A := match o with Some x => [x] | None => [] end.
Definition visited (k : kind) (n : anode) : list (kind * anode) :=
  flat_map (fun '(name, many, k') => map (fun m => (k', m)) (if many : bool then all name n else of_option (one name n)))
           (fields k).

(** wbnfgrammar.go:107-126 [Stopper]: what its two methods return; [NodeExiter] and [Aborter]. *)
Record stopper := mkStopper { exit_node : bool; abort : bool }.
Definition NodeExiter : stopper := mkStopper true false.
Definition Aborter : stopper := mkStopper true true.

Section Walk.
  (** The callbacks.  They are closures that change the state [St]; a callback that is not set
      returns nil and changes nothing. *)
  Context {St : Type}.
  Variables (enter exit : kind -> anode -> St -> cres (option stopper * St)).

  (** What a walk function does with the stopper of a callback or a child:
      return ([Some]) or go on ([None]). *)
  Definition reaction (s : option stopper) : option (option stopper) :=
    match s with
    | None => None
    | Some s => if exit_node s then Some None else if abort s then Some (Some s) else None
    end.

  Section Children.
    Variable walk : kind -> anode -> St -> cres (option stopper * St).
    (** The loops over the children: [inl] when one of them makes the function return. *)
    Fixpoint walk_children (l : list (kind * anode)) (st : St) : cres (option stopper * St + St) :=
      match l with
      | [] => COk (inr st)
      | (k, n) :: l' =>
          cbind (walk k n st) (fun '(s, st) =>
          match reaction s with
          | Some r => COk (inl (r, st))
          | None => walk_children l' st
          end)
      end.
  End Children.

  (** wbnfgrammar.go:741-816 [Walk] and the walk functions; [CDiv] is out of fuel.  For a leaf type the stopper
      of the callback is returned as it is. *)
  Fixpoint walk (fuel : nat) (k : kind) (n : anode) (st : St) {struct fuel} : cres (option stopper * St) :=
    match fuel with
    | O => CDiv
    | S fuel =>
        cbind (enter k n st) (fun '(s, st) =>
        if leaf_kind k then COk (s, st)
        else match reaction s with
             | Some r => COk (r, st)
             | None =>
                 cbind (walk_children (walk fuel) (visited k n) st) (fun c =>
                 match c with
                 | inl r => COk r
                 | inr st =>
                     cbind (exit k n st) (fun '(s, st) =>
                     match s with
                     | Some s => COk (if abort s then Some s else None, st)
                     | None => COk (None, st)
                     end)
                 end)
             end)
    end.
End Walk.
