(** What the AST of a grammar text says: grammar texts without macros and nested grammars as
    trees of their own, how an AST shows them, and the terms they stand for. *)
From Verif Require Import Base Scanner Syntax Resolve Ast WbnfAst StrLit Build NumSpec.

(** Quantifiers: a repetition, with whether its text asks for at least one, or a list with a
    separator. *)
Inductive quant (A : Type) :=
| QRep (mn mx : nat) (asks : bool)
| QList (a : assoc) (name : string) (sep : A) (lead trail : bool).
Arguments QRep {A}.
Arguments QList {A}.

Inductive ctext :=
| CRule (x : string) | CLit (v : bytes) | CRe (v : bytes) | CRef (i : string) (d : option bytes) | CExt (x : string)
| CLook (c : ctext) | CGroup (c : ctext) | CNone
| CChoice (cs : list ctext) | CSeq (cs : list ctext) | CStack (cs : list ctext)
| CLeaf (name : string) (atom : ctext) (qs : list (quant ctext)).

Definition qsep {A} (q : quant A) : list A := match q with QRep _ _ _ => [] | QList _ _ s _ _ => [s] end.
Definition qasks {A} (q : quant A) : bool := match q with QRep _ _ b => b | QList _ _ _ _ _ => true end.

Section CtextInd.
  Variable P : ctext -> Prop.
  Hypothesis HRule : forall x, P (CRule x).
  Hypothesis HLit : forall v, P (CLit v).
  Hypothesis HRe : forall v, P (CRe v).
  Hypothesis HRef : forall i d, P (CRef i d).
  Hypothesis HExt : forall x, P (CExt x).
  Hypothesis HLook : forall c, P c -> P (CLook c).
  Hypothesis HGroup : forall c, P c -> P (CGroup c).
  Hypothesis HNone : P CNone.
  Hypothesis HChoice : forall cs, Forall P cs -> P (CChoice cs).
  Hypothesis HSeq : forall cs, Forall P cs -> P (CSeq cs).
  Hypothesis HStack : forall cs, Forall P cs -> P (CStack cs).
  Hypothesis HLeaf : forall n a qs, P a -> Forall (fun q => Forall P (qsep q)) qs -> P (CLeaf n a qs).
  Fixpoint ctext_ind' (c : ctext) : P c :=
    let list_ind := fix go (cs : list ctext) : Forall P cs :=
      match cs with
      | [] => Forall_nil P
      | x :: cs' => Forall_cons x (ctext_ind' x) (go cs')
      end in
    match c with
    | CRule x => HRule x
    | CLit v => HLit v
    | CRe v => HRe v
    | CRef i d => HRef i d
    | CExt x => HExt x
    | CLook c => HLook c (ctext_ind' c)
    | CGroup c => HGroup c (ctext_ind' c)
    | CNone => HNone
    | CChoice cs => HChoice cs (list_ind cs)
    | CSeq cs => HSeq cs (list_ind cs)
    | CStack cs => HStack cs (list_ind cs)
    | CLeaf n a qs => HLeaf n a qs (ctext_ind' a)
        ((fix go (qs : list (quant ctext)) : Forall (fun q => Forall P (qsep q)) qs :=
            match qs with
            | [] => Forall_nil _
            | q :: qs' => Forall_cons q
                (match q return Forall P (qsep q) with
                 | QRep _ _ _ => Forall_nil P
                 | QList _ _ s _ _ => Forall_cons s (ctext_ind' s) (Forall_nil P)
                 end) (go qs')
            end) qs)
    end.
End CtextInd.

(** * The term a text stands for *)

Definition named_term (n : string) (t : term) : term := if String.eqb n "" then t else TNamed n t.
(** Terms next to each other; one alone stands for itself. *)
Definition juxtaposed (ts : list term) : term := match ts with [t] => t | _ => TSeq ts end.
Fixpoint term_of (c : ctext) : term :=
  match c with
  | CRule x => TRule x
  | CLit v => TS v
  | CRe v => TRE v
  | CRef i d => TREF i d
  | CExt x => TExtRef x
  | CLook c => TLookAhead (term_of c)
  | CGroup c => term_of c
  | CNone => TSeq []
  | CChoice cs => TOneof (map term_of cs)
  | CSeq cs => juxtaposed (map term_of cs)
  | CStack cs => TStack (map term_of cs)
  | CLeaf n a qs =>
      fold_right (fun q t => match q with
                             | QRep mn mx _ => TQuant t mn mx
                             | QList ass sn sep l r => TDelim t (named_term sn (term_of sep)) ass l r
                             end) (named_term n (term_of a)) qs
  end.

(** * How an AST shows a text *)

Definition text_at (name : string) (n : anode) (s : bytes) : Prop := exists m, node_one n name = Some m /\ node_text m = COk s.
Definition kind_of (n : anode) (k : string) : Prop := exists b, n = ABranch b /\ which b atom_kinds = k.
(** The number that a bound is: 0 if its text is empty or absent. *)
Definition bound_of (n : option anode) (k : nat) : Prop :=
  exists x, string_of n = COk x /\ (x = ""%string /\ k = 0 \/ numeral (bs x) k /\ is_int k).

(** A child of the kind "term" only for groups, of the kind "IDENT" only for references. *)
Definition bare (n : anode) : Prop := one "term" n = None.
Definition unnamed (n : anode) : Prop := one "term" n = None /\ one "IDENT" n = None.

Inductive reads : anode -> ctext -> Prop :=
| rd_choice : forall t cs, one_op t = COk "|"%string -> all "term" t <> [] -> Forall2 reads (all "term" t) cs -> reads t (CChoice cs)
| rd_stack : forall t cs, one_op t = COk ">"%string -> all "term" t <> [] -> Forall2 reads (all "term" t) cs -> reads t (CStack cs)
| rd_seq : forall t cs, one_op t = COk ""%string -> all "term" t <> [] -> all "grammar" t = [] ->
    Forall2 reads (all "term" t) cs -> reads t (CSeq cs)
| rd_leaf : forall t n name a qs, one_op t = COk ""%string -> all "term" t = [] -> one "named" t = Some n ->
    reads_named n name a -> Forall2 reads_quant (all "quant" t) qs -> reads t (CLeaf name a qs)
with reads_named : anode -> string -> ctext -> Prop :=
| rn : forall n name at_ a, string_of (one "IDENT" n) = COk name -> one "atom" n = Some at_ -> reads_atom at_ a -> reads_named n name a
with reads_atom : anode -> ctext -> Prop :=
| ra_rule : forall n s, kind_of n "IDENT" -> text_at "IDENT" n s -> bare n -> reads_atom n (CRule (sb s))
| ra_lit : forall n s v, kind_of n "STR" -> text_at "STR" n s -> parse_string s = Some v -> unnamed n -> reads_atom n (CLit v)
| ra_re : forall n s v, kind_of n "RE" -> text_at "RE" n s -> parse_regexp s = Some v -> unnamed n -> reads_atom n (CRe v)
| ra_ref : forall n r i, kind_of n "REF" -> one "REF" n = Some r -> string_of (one "IDENT" r) = COk i ->
    string_of (one "default" r) = COk ""%string -> unnamed n -> reads_atom n (CRef i None)
| ra_ref_default : forall n r i d v, kind_of n "REF" -> one "REF" n = Some r -> string_of (one "IDENT" r) = COk i ->
    string_of (one "default" r) = COk d -> d <> ""%string -> parse_string (bs d) = Some v -> unnamed n -> reads_atom n (CRef i (Some v))
| ra_ext : forall n r i, kind_of n "ExtRef" -> one "ExtRef" n = Some r -> string_of (one "IDENT" r) = COk i -> unnamed n ->
    reads_atom n (CExt i)
| ra_look : forall n t c, kind_of n "lookahead" -> one "lookahead" n = Some t -> reads t c -> unnamed n -> reads_atom n (CLook c)
| ra_group : forall n t c, kind_of n "term" -> one "term" n = Some t -> reads t c -> reads_atom n (CGroup c)
| ra_none : forall n, kind_of n "" -> unnamed n -> reads_atom n CNone
with reads_quant : anode -> quant ctext -> Prop :=
| rq_star : forall q, choice_of (Some q) = COk 0%Z -> one_op q = COk "*"%string -> one "min" q = None -> one "named" q = None ->
    reads_quant q (QRep 0 0 false)
| rq_opt : forall q, choice_of (Some q) = COk 0%Z -> one_op q = COk "?"%string -> one "min" q = None -> one "named" q = None ->
    reads_quant q (QRep 0 1 false)
| rq_plus : forall q, choice_of (Some q) = COk 0%Z -> one_op q = COk "+"%string -> one "named" q = None -> reads_quant q (QRep 1 0 true)
| rq_upto : forall q mx, choice_of (Some q) = COk 1%Z -> one_op q = COk ""%string -> one "min" q = None -> one "named" q = None ->
    bound_of (one "max" q) mx -> reads_quant q (QRep 0 mx false)
| rq_range : forall q m x mn mx, choice_of (Some q) = COk 1%Z -> one_op q = COk ""%string -> one "named" q = None ->
    one "min" q = Some m -> string_of (Some m) = COk x -> bound_of (Some m) mn -> bound_of (one "max" q) mx ->
    reads_quant q (QRep mn mx (negb (String.eqb x "0")))
| rq_list : forall q op a n name sep l r, choice_of (Some q) = COk 2%Z -> one_op q = COk op -> direction op a ->
    one "min" q = None -> one "named" q = Some n -> reads_named n name sep ->
    one_token_of "opt_leading" q = COk l -> one_token_of "opt_trailing" q = COk r ->
    reads_quant q (QList a name sep (negb (String.eqb l "")) (negb (String.eqb r ""))).

(** A production, with its terms, and the productions of a grammar in order. *)
Definition reads_prod (p : anode) (xcs : string * list ctext) : Prop :=
  string_of (one "IDENT" p) = COk (fst xcs) /\ Forall2 reads (all "term" p) (snd xcs).
Definition reads_grammar (n : anode) (prods : list (string * list ctext)) : Prop :=
  Forall2 reads_prod (flat_map (fun s => match one "prod" s with Some p => [p] | None => [] end) (all "stmt" n)) prods.

(** The grammar that a text stands for, before cut points are put in. *)
Definition grammar_text (prods : list (string * list ctext)) : grammar :=
  map (fun xcs => (fst xcs, juxtaposed (map term_of (snd xcs)))) prods.
