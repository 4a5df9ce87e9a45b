(** Grammar texts for which the recursion check of validation sees all left recursion. *)
From Verif Require Import Base Scanner Syntax Engine PegSpec WfSpec TextSpec.

Section Guard.
  (** The engine, the .wrapRE in force, the rules that always consume input, and all rules. *)
  Variables (E : engine) (w : option term) (eating defined : list string).

  (** Matches of [c] consume input. *)
  Inductive solid : ctext -> Prop :=
  | so_rule : forall x, In x eating -> solid (CRule x)
  | so_lit : forall v, (forall pat, token_pattern w v (bs "(" ++ quote_meta v ++ bs ")") pat -> bites E pat) -> solid (CLit v)
  | so_re : forall v, (forall pat, token_pattern w v (bs "(" ++ v ++ bs ")") pat -> bites E pat) -> solid (CRe v)
  | so_group : forall c, solid c -> solid (CGroup c)
  | so_choice : forall cs, Forall solid cs -> solid (CChoice cs)
  | so_seq : forall cs, Exists solid cs -> solid (CSeq cs)
  | so_leaf : forall n a qs, solid a -> Forall (fun q => match q with QRep mn _ _ => 0 < mn | QList _ _ _ _ _ => True end) qs ->
      solid (CLeaf n a qs).

  (** What is repeated without bound, and the elements of lists, are solid; the rules exist; no stacks. *)
  Inductive sound : ctext -> Prop :=
  | sn_rule : forall x, In x defined -> sound (CRule x)
  | sn_lit : forall v, sound (CLit v)
  | sn_re : forall v, sound (CRe v)
  | sn_ref : forall i d, sound (CRef i d)
  | sn_ext : forall x, sound (CExt x)
  | sn_none : sound CNone
  | sn_look : forall c, sound c -> sound (CLook c)
  | sn_group : forall c, sound c -> sound (CGroup c)
  | sn_choice : forall cs, Forall sound cs -> sound (CChoice cs)
  | sn_seq : forall cs, Forall sound cs -> sound (CSeq cs)
  | sn_leaf : forall n a, sound a -> sound (CLeaf n a [])
  | sn_rep : forall n a mn mx b qs, sound (CLeaf n a qs) -> (mx = 0 -> solid (CLeaf n a qs)) -> sound (CLeaf n a (QRep mn mx b :: qs))
  | sn_list : forall n a ass sn sep l r qs, sound (CLeaf n a qs) -> solid (CLeaf n a qs) -> sound sep ->
      sound (CLeaf n a (QList ass sn sep l r :: qs)).

  (** No rule is entered before something has been consumed. *)
  Inductive opens : ctext -> Prop :=
  | op_lit : forall v, opens (CLit v)
  | op_re : forall v, opens (CRe v)
  | op_ref : forall i d, opens (CRef i d)
  | op_ext : forall x, opens (CExt x)
  | op_none : opens CNone
  | op_look : forall c, opens c -> opens (CLook c)
  | op_group : forall c, opens c -> opens (CGroup c)
  | op_choice : forall cs, Forall opens cs -> opens (CChoice cs)
  | op_seq : forall cs, opens_all cs -> opens (CSeq cs)
  | op_leaf : forall n a qs, opens a -> (forall ass sn sep r, In (QList ass sn sep true r) qs -> opens sep) ->
      opens (CLeaf n a qs)
  with opens_all : list ctext -> Prop :=
  | oa_nil : opens_all []
  | oa_solid : forall c cs, opens c -> solid c -> opens_all (c :: cs)
  | oa_cons : forall c cs, opens c -> opens_all cs -> opens_all (c :: cs).

  (** An element of a sequence that may match nothing, with others after it, must be a reference or a quantified literal. *)
  Definition honest (c : ctext) : Prop :=
    solid c \/
    exists n a qs, c = CLeaf n a qs /\ existsb qasks qs = false /\
      ((exists x, a = CRule x) \/ (qs <> [] /\ forall c, a <> CGroup c)).

  (** Everything that a match may enter first is a reference the check looks at. *)
  Inductive guarded : ctext -> Prop :=
  | gd_opens : forall c, opens c -> guarded c
  | gd_choice : forall cs, Forall guarded cs -> guarded (CChoice cs)
  | gd_seq : forall cs, guarded_all cs -> guarded (CSeq cs)
  | gd_rule : forall n x qs, x <> ""%string -> existsb qasks qs = false -> guarded (CLeaf n (CRule x) qs)
  | gd_leaf : forall n c qs, existsb qasks qs = false -> guarded c -> guarded (CLeaf n (CGroup c) qs)
  with guarded_all : list ctext -> Prop :=
  | ga_nil : guarded_all []
  | ga_last : forall c, guarded c -> guarded_all [c]
  | ga_solid : forall c cs, guarded c -> solid c -> guarded_all (c :: cs)
  | ga_cons : forall c cs, guarded c -> honest c -> guarded_all cs -> guarded_all (c :: cs).
End Guard.

(** A text whose productions satisfy the conditions; [eating] are rules whose productions are solid. *)
Record guarded_text (E : engine) (w : option term) (eating : list string) (prods : list (string * list ctext)) : Prop := {
  gt_sound : forall x cs, In (x, cs) prods -> Forall (sound E w eating (keys prods)) cs;
  gt_guarded : forall x cs, In (x, cs) prods -> Forall (guarded E w eating) cs;
  gt_eating : forall x, In x eating -> exists cs, In (x, cs) prods /\ Exists (solid E w eating) cs
}.
