(** Model of parser/scanner.go.
    A Go [Scanner] is a value; methods with pointer receivers return the new value here.
    [None] results stand for a Go run-time panic. *)
From Verif Require Import Base.
Local Open Scope Z_scope.

(** scanner.go:23-26 [stringSource] (the only implementation of [source]). *)
Record source := mkSource { origin : bytes; fname : string }.

(** scanner.go:10-14 [Scanner]; [src = None] is the nil interface. *)
Record scanner := mkScanner { src : option source; start : Z; slen : Z }.

(** The zero value [Scanner{}]. *)
Definition zero_scanner : scanner := mkScanner None 0 0.

Definition blen (b : bytes) : Z := Z.of_nat (length b).

(** Go's [s[i:j]] on a string; [None] when out of range (run-time panic). *)
Definition go_slice (b : bytes) (i j : Z) : option bytes :=
  if (0 <=? i) && (i <=? j) && (j <=? blen b)
  then Some (firstn (Z.to_nat (j - i)) (skipn (Z.to_nat i) b))
  else None.

(** scanner.go:217-219 [stringSource.length]. *)
Definition src_length (s : source) : Z := blen (origin s).

(** scanner.go:221-227 [stringSource.slice]: out of range yields the whole origin. *)
Definition src_slice (s : source) (i len : Z) : option bytes :=
  if (i <? 0) || (i + len <? 0) || (i >? blen (origin s)) || (i + len >? blen (origin s))
  then Some (origin s)
  else go_slice (origin s) i (i + len).

(** scanner.go:212-215 [stringSource.stripSource]. *)
Definition src_strip (s : source) (i len : Z) : option source :=
  match src_slice s i len with
  | Some o => Some (mkSource o (fname s))
  | None => None
  end.

(** scanner.go:28-30 [NewScanner]. *)
Definition new_scanner (b : bytes) : scanner := mkScanner (Some (mkSource b "")) 0 (blen b).
(** scanner.go:32-34 [NewScannerWithFilename]. *)
Definition new_scanner_file (b : bytes) (f : string) : scanner :=
  mkScanner (Some (mkSource b f)) 0 (blen b).
(** scanner.go:36-38 [NewScannerAt]. *)
Definition new_scanner_at (b : bytes) (off size : Z) : scanner :=
  mkScanner (Some (mkSource b "")) off size.

(** scanner.go:123-125 [Scanner.slice]; a nil source panics. *)
Definition sslice (s : scanner) : option bytes :=
  match src s with
  | None => None
  | Some o => src_slice o (start s) (slen s)
  end.

(** scanner.go:52-57 [Scanner.String]. *)
Definition sstring (s : scanner) : option bytes :=
  match src s with
  | None => Some []
  | Some _ => sslice s
  end.

(** scanner.go:59-61 [Scanner.IsNil]. *)
Definition is_nil (s : scanner) : bool := match src s with None => true | Some _ => false end.

(** scanner.go:48-50 [Scanner.Filename]. *)
Definition filename (s : scanner) : option string :=
  match src s with None => None | Some o => Some (fname o) end.

(** scanner.go:113-115 [Scanner.Offset]. *)
Definition offset (s : scanner) : Z := start s.

(** scanner.go:42-45 [Scanner.StripSource]. *)
Definition strip_source (s : scanner) : option scanner :=
  match src s with
  | None => None
  | Some o => match src_strip o (start s) (slen s) with
              | Some o' => Some (mkScanner (Some o') (start s) (slen s))
              | None => None
              end
  end.

(** Go [==] on [stringSource] values held in a [source] interface: field-wise. *)
Definition source_eqb (a b : source) : bool :=
  beqb (origin a) (origin b) && String.eqb (fname a) (fname b).
Definition osource_eqb (a b : option source) : bool :=
  match a, b with
  | None, None => true
  | Some x, Some y => source_eqb x y
  | _, _ => false
  end.

(** scanner.go:76-83 [Scanner.Contains]; [Filename] on a nil source panics. *)
Definition contains (s sn : scanner) : option bool :=
  match filename s, filename sn with
  | Some f, Some fn =>
      if negb (String.eqb f fn) || negb (osource_eqb (src s) (src sn)) then Some false
      else Some ((start s <=? start sn) && (start s + slen s >=? start sn + slen sn))
  | _, _ => None
  end.

(** [strings.Count(p, "\n")]. *)
Definition count_nl (p : bytes) : Z := Z.of_nat (count_occ ascii_dec p nl).

(** [strings.LastIndex(p, "\n")]; -1 when absent. *)
Fixpoint last_index_from (p : bytes) (i : Z) (acc : Z) : Z :=
  match p with
  | [] => acc
  | c :: p' => last_index_from p' (i + 1) (if Ascii.eqb c nl then i else acc)
  end.
Definition last_index_nl (p : bytes) : Z := last_index_from p 0 (-1).

(** scanner.go:234-239 [lineColumn]; [str[:pos]] may panic. *)
Definition line_column (str : bytes) (pos : Z) : option (Z * Z) :=
  match go_slice str 0 pos with
  | None => None
  | Some prefix => Some (count_nl prefix + 1, pos - last_index_nl prefix)
  end.

(** scanner.go:118-120 [Scanner.Position]. *)
Definition position (s : scanner) : option (Z * Z) :=
  match src s with
  | None => None
  | Some o => match src_slice o 0 (start s) with
              | None => None
              | Some t => line_column t (start s)
              end
  end.

(** scanner.go:127-129 [Scanner.Slice]. *)
Definition slice (s : scanner) (a b : Z) : scanner := mkScanner (src s) (start s + a) (b - a).

(** scanner.go:131-133 [Scanner.Skip]. *)
Definition skip (s : scanner) (i : Z) : scanner := mkScanner (src s) (start s + i) (slen s - i).

(** scanner.go:166-172 [Scanner.Eat]: returns (eaten, new receiver). *)
Definition eat (s : scanner) (i : Z) : scanner * scanner :=
  (mkScanner (src s) (start s) i, skip s i).

(** scanner.go:174-180 [Scanner.EatString]: [Some (Some (eaten, rest))] on success,
    [Some None] when it returns false, [None] on panic. *)
Definition eat_string (s : scanner) (str : bytes) : option (option (scanner * scanner)) :=
  match sslice s with
  | None => None
  | Some t => if has_prefix str t then Some (Some (eat s (blen str))) else Some None
  end.

(** scanner.go:146-156, the loop of [MergeScanners]. *)
Fixpoint merge_loop (o : option source) (l r : Z) (items : list scanner) : option (Z * Z) :=
  match items with
  | [] => Some (l, r)
  | v :: rest =>
      if negb (osource_eqb (src v) o) then None
      else
        let l' := if start v <? l then start v else l in
        let r' := if start v + slen v >? r then start v + slen v else r in
        merge_loop o l' r' rest
  end.

(** scanner.go:135-163 [MergeScanners]; [None] is the error result. *)
Definition merge_scanners (items : list scanner) : option scanner :=
  match items with
  | [] => None
  | [s] => Some s
  | s :: rest =>
      match merge_loop (src s) (start s) (start s + slen s) rest with
      | None => None
      | Some (l, r) => Some (mkScanner (src s) l (r - l))
      end
  end.

(** [strings.Split(b, "\n")]. *)
Fixpoint split_nl (b : bytes) : list bytes :=
  match b with
  | [] => [[]]
  | c :: b' =>
      if Ascii.eqb c nl then [] :: split_nl b'
      else match split_nl b' with
           | [] => [[c]]
           | l :: ls => (c :: l) :: ls
           end
  end.

(** [strings.Join(ls, "\n")]. *)
Fixpoint join_nl (ls : list bytes) : bytes :=
  match ls with
  | [] => []
  | [l] => l
  | l :: ls' => l ++ nl :: join_nl ls'
  end.

(** scanner.go:85-110 [Scanner.Context]: the parts it prints, namely
    (line, column), text before, highlighted text, text after.  The fixed colour
    escapes and the file name around them are not modelled.
    [limit = -1] is [NoLimit]. *)
Definition context (s : scanner) (limit : Z) : option ((Z * Z) * bytes * bytes * bytes) :=
  match src s with
  | None => None
  | Some o =>
      let en := start s + slen s in
      match position s, src_slice o 0 (start s), src_slice o en (src_length o - en), sslice s with
      | Some pos, Some above, Some below, Some mid =>
          if limit =? -1 then Some (pos, above, mid, below)
          else
            let a := split_nl above in
            let b := split_nl below in
            let na := Z.of_nat (length a) in
            let nb := Z.of_nat (length b) in
            (* a[len(a)-limit-1:] and b[:limit] panic for limits below -1 *)
            if limit <? 0 then None
            else
              let above' := if na >? limit
                            then join_nl (skipn (Z.to_nat (na - limit - 1)) a) else above in
              let below' := if nb >? limit
                            then join_nl (firstn (Z.to_nat limit) b) else below in
              Some (pos, above', mid, below')
      | _, _, _, _ => None
      end
  end.
