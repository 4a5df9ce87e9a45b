(** Model of parser/unparse.go: writing the text of a tree again. *)
From Verif Require Import Base Scanner Syntax Resolve Ast.

(** What was written and the number of bytes reported.  The writer is one that never fails (a
    strings.Builder, say); what was written before a panic is dropped. *)
Definition written := (bytes * nat)%type.

(** unparse.go:13, 17, 20: [e.(Scanner).String()]. *)
Definition leaf_string (e : tree) : cres bytes :=
  match e with
  | Leaf s => match sstring s with Some b => COk b | None => CPanic end
  | _ => CPanic
  end.
(** [w.Write] of a string. *)
Definition wrote (b : bytes) : cres written := COk (b, length b).
(** unparse.go:23-29 [unparse], then the rest. *)
Definition then_write (a : cres written) (b : cres written) : cres written :=
  cbind a (fun '(x, n) => cbind b (fun '(y, m) => COk (x ++ y, n + m))).

Section Loops.
  Variable rec : term -> tree -> cres written.
  (** unparse.go:31-39, the loop of [Seq.Unparse]; a missing child is an index out of range. *)
  Fixpoint unparse_seq (ts : list term) (cs : list tree) : cres written :=
    match ts with
    | [] => COk ([], 0)
    | t :: ts' => match cs with
                  | [] => CPanic
                  | c :: cs' => then_write (rec t c) (unparse_seq ts' cs')
                  end
    end.
  (** unparse.go:49-53, 58-63, 67-72: the loops over the children; [at_ i] is the term of child [i]. *)
  Fixpoint unparse_each (at_ : nat -> term) (i : nat) (cs : list tree) : cres written :=
    match cs with
    | [] => COk ([], 0)
    | c :: cs' => then_write (rec (at_ i) c) (unparse_each at_ (S i) cs')
    end.
End Loops.

(** unparse.go:12-106: the [Unparse] methods.  A rule that is missing in the map is a nil term. *)
Fixpoint unparse (f : nat) (g : grammar) (t : term) (e : tree) {struct f} : cres written :=
  match f with
  | O => CDiv
  | S f =>
      match t with
      | TS _ | TRE _ => cbind (leaf_string e) wrote                                  (* 12-18 *)
      | TREF _ _ => cbind (leaf_string e) (fun b => wrote ("\"%char :: b))           (* 19-21 *)
      | TSeq ts => match e with Node _ _ cs => unparse_seq (unparse f g) ts cs | _ => CPanic end
      | TOneof ts =>                                                                 (* 41-44 *)
          match e with
          | Node _ (XChoice i) (c :: _) => match nth_error ts i with Some t' => unparse f g t' c | None => CPanic end
          | _ => CPanic
          end
      | TDelim t' sep _ _ _ =>                                                       (* 46-55 *)
          match e with
          | Node _ (XAssoc a) cs => unparse_each (unparse f g) (lr_term t' sep t a) 0 cs
          | _ => CPanic
          end
      | TLookAhead t' | TQuant t' _ _ =>                                             (* 57-73 *)
          match e with Node _ _ cs => unparse_each (unparse f g) (fun _ => t') 0 cs | _ => CPanic end
      | TRule r => match lookup r g with Some t' => unparse f g t' e | None => CPanic end
      | TNamed _ t' | TCut t' => unparse f g t' e                                    (* 89-92, 100-102 *)
      | TStack _ | TScoped _ _ | TExtRef _ => CPanic                                 (* 83-85, 96-98, 104-106 *)
      end
  end.

(** terms.go:21-24 [Grammar.Unparse], terms.go:46-48 [Parsers.Unparse]. *)
Definition grammar_unparse (f : nat) (g : grammar) (e : tree) : cres written :=
  match e with
  | Node tag _ _ => match lookup tag g with Some t => unparse f g t e | None => CPanic end
  | _ => CPanic
  end.
