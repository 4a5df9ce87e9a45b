(** Model of wbnf/grammar.go: the grammar of wbnf read from its own text, and the comparison with the one written by hand. *)
From Verif Require Import Base Scanner Syntax Engine Resolve Compile WbnfGrammar Diff Front.

Definition is_stack_term (t : term) : bool := match t with TStack _ => true | _ => false end.

(** parser.go:743-755: compiling a nested grammar writes the [.wrapRE] in force into its map,
    unless it has one; a nested grammar with stacks is cloned first, so that the write is lost.  [wrap] is
    [c.grammar[WrapRE]]. *)
Fixpoint write_wrap (wrap : option term) (t : term) : term :=
  match t with
  | TRule _ | TS _ | TRE _ | TREF _ _ | TExtRef _ | TStack _ => t
  | TSeq ts => TSeq (map (write_wrap wrap) ts)
  | TOneof ts => TOneof (map (write_wrap wrap) ts)
  | TDelim t sep a cs ce => TDelim (write_wrap wrap t) (write_wrap wrap sep) a cs ce
  | TLookAhead t => TLookAhead (write_wrap wrap t)
  | TQuant t mn mx => TQuant (write_wrap wrap t) mn mx
  | TNamed n t => TNamed n (write_wrap wrap t)
  | TCut t => TCut (write_wrap wrap t)
  | TScoped t g =>
      let wrap' := match lookup WrapRE g with Some w => Some w | None => wrap end in
      let g' := map (fun kv => (fst kv, write_wrap wrap' (snd kv))) g in
      TScoped (write_wrap wrap' t)
              (match lookup WrapRE g, wrap with
               | None, Some w => if existsb (fun kv => is_stack_term (snd kv)) g then g' else aset WrapRE w g'
               | _, _ => g'
               end)
  end.
(** terms.go:33-35 [Parsers.Grammar] after parser.go:98-136 [Compile]. *)
Definition compiled_grammar (g : grammar) : cres grammar :=
  cbind (resolve_stacks g) (fun g1 =>
  COk (map (fun kv => (fst kv, write_wrap (lookup WrapRE g1) (snd kv))) g1)).

(** The grammar the caller of parser.go:98-136 [Compile] is left with.  A grammar with stacks is
    cloned first (99-105), so that the rules of the caller stay; the maps of nested grammars are
    shared with the clone, and parser.go:751-755 writes into them.  (Layers of stacks hold no nested
    grammars when compilation succeeds: resolve.go:64-66.  Simplified: the [.wrapRE] written is taken
    as it was at the start, and the [.wrapRE] of a nested grammar that is itself a stack is handed
    down unresolved.) *)
Definition left_behind (g : grammar) : cres grammar :=
  cbind (resolve_stacks g) (fun g1 =>
  COk (map (fun kv => (fst kv, write_wrap (lookup WrapRE g1) (snd kv))) g)).

(** grammar.go:12-28 [core]: panics if the comparison finds a difference. *)
Definition core (E : engine) (g : grammar) : cres parsers :=
  cbind (compile E g) (fun _ =>
  cbind (compiled_grammar g) (fun b =>
  cbind (compile E wbnf_grammar) (fun _ =>
  cbind (compiled_grammar wbnf_grammar) (fun a =>
  match grammars a b with
  | Some d => if gdiff_equal d then compile E b else CPanic
  | None => CPanic
  end)))).
