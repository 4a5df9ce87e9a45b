(** Model of wbnf/cutpoints.go. *)
From Verif Require Import Base Syntax.

(** A frozen.Map[string, int] as an association list; only its key/value pairs matter. *)
Definition counts := list (bytes * nat).
Fixpoint get_count (x : bytes) (m : counts) : nat :=
  match m with
  | [] => 0
  | (y, n) :: m' => if beqb x y then n else get_count x m'
  end.
(** One key of [Merge] with cutpoints.go:60-62 [mergeFn] (a + b). *)
Fixpoint add_count (x : bytes) (n : nat) (m : counts) : counts :=
  match m with
  | [] => [(x, n)]
  | (y, k) :: m' => if beqb x y then (y, k + n) :: m' else (y, k) :: add_count x n m'
  end.
Definition merge (a b : counts) : counts := fold_left (fun m kv => add_count (fst kv) (snd kv) m) b a.

(** cutpoints.go:112-114: the keys with value 1. *)
Definition uniques (m : counts) : list bytes := map fst (filter (fun kv => Nat.eqb (snd kv) 1) m).

(** cutpoints.go:63-107 [forTerm].  [LookAhead] is not entered (line 102). *)
Fixpoint for_term (t : term) : counts :=
  match t with
  | TS s => add_count s 1 []
  | TSeq ts => fold_left (fun out t => merge out (for_term t)) ts []
  | TStack ts => fold_left (fun out t => merge out (for_term t)) ts []
  | TOneof ts => fold_left (fun out t => merge out (for_term t)) ts []
  | TDelim t sep _ cs _ =>
      let out := merge (merge [] (for_term t)) (for_term sep) in
      if cs then merge out (for_term sep) else out
  | TQuant t _ _ => merge [] (for_term t)
  | TNamed _ t => merge [] (for_term t)
  | TScoped t g =>
      let nested := fold_left (fun m kv => merge m (for_term (snd kv))) g [] in
      merge (merge [] (for_term t)) (map (fun x => (x, 1)) (uniques nested))
  | TREF _ (Some d) => merge [] (add_count d 1 [])
  | TREF _ None => []
  | TCut t => merge [] (for_term t)
  | TRE _ | TRule _ | TExtRef _ | TLookAhead _ => []
  end.

(** cutpoints.go:59-115 [findUniqueStrings]; the rules are visited in some map order. *)
Definition find_unique_strings (g : grammar) : list bytes :=
  uniques (fold_left (fun m kv => merge m (for_term (snd kv))) g []).

(** cutpoints.go:125-171 [fixTerm] with a callback.  [nested]: the callback itself rebuilds
    the grammar of a scoped grammar with the same callback (lines 52-54); the callback [cb]
    is what it does to the other terms.  Sequences do not go through the callback (line 132). *)
Fixpoint fix_term (cb : term -> term) (nested : bool) (t : term) : term :=
  match t with
  | TSeq ts => TSeq (map (fix_term cb nested) ts)
  | TStack ts => cb (TStack (map (fix_term cb nested) ts))
  | TOneof ts => cb (TOneof (map (fix_term cb nested) ts))
  | TDelim t sep a cs ce => cb (TDelim (fix_term cb nested t) (fix_term cb nested sep) a cs ce)
  | TQuant t mn mx => cb (TQuant (fix_term cb nested t) mn mx)
  | TNamed n t => cb (TNamed n (fix_term cb nested t))
  | TScoped t g =>
      let t' := fix_term cb nested t in
      if nested then TScoped t' (map (fun kv => (fst kv, fix_term cb nested (snd kv))) g) else cb (TScoped t' g)
  | TCut t => cb (TCut (fix_term cb nested t))
  | TS _ | TREF _ _ | TRE _ | TRule _ | TExtRef _ | TLookAhead _ => cb t
  end.

(** cutpoints.go:117-123 [rebuildGrammar]. *)
Definition rebuild_grammar (cb : term -> term) (nested : bool) (g : grammar) : grammar :=
  map (fun kv => (fst kv, fix_term cb nested (snd kv))) g.

(** cutpoints.go:45-56, the callback of [insertCutPoints]. *)
Definition cut_callback (strings : list bytes) (t : term) : term :=
  match t with
  | TS s => if existsb (beqb s) strings then TCut t else t
  | _ => t
  end.

(** cutpoints.go:39-57 [insertCutPoints]. *)
Definition insert_cut_points (g : grammar) : grammar :=
  rebuild_grammar (cut_callback (find_unique_strings g)) true g.
