(** Proofs about new scanners. *)
From Verif Require Import Base Scanner ScannerSpec ScannerProofs.
Local Open Scope Z_scope.

Lemma new_shows : forall b f, window (new_scanner b) (mkSource b "") 0 (length b) /\ shows (new_scanner b) b /\
  window (new_scanner_file b f) (mkSource b f) 0 (length b) /\ shows (new_scanner_file b f) b.
Proof.
  intros b f. assert (Q : forall f, window (new_scanner_file b f) (mkSource b f) 0 (length b) /\ shows (new_scanner_file b f) b).
  { intros f0. split; [repeat split; cbn; lia|]. unfold shows, sstring, sslice. cbn [src new_scanner_file start slen]. change 0 with (Z.of_nat 0). unfold blen.
    rewrite src_slice_ok by (cbn; lia). cbn [skipn origin]. now rewrite firstn_all. }
  destruct (Q ""%string), (Q f). auto.
Qed.
Lemma new_at_shows : forall b off size,
  (forall i n t, off = Z.of_nat i -> size = Z.of_nat n -> range_text b i n t -> shows (new_scanner_at b off size) t) /\
  ((off < 0 \/ off + size < 0 \/ blen b < off \/ blen b < off + size)%Z -> shows (new_scanner_at b off size) b) /\
  ((size < 0 /\ 0 <= off + size /\ off <= blen b)%Z -> sstring (new_scanner_at b off size) = None).
Proof.
  intros b off size. unfold shows, sstring, sslice. cbn [src new_scanner_at start slen]. split; [|split].
  - intros i n t -> -> (p & q & -> & <- & <-). rewrite src_slice_ok by (cbn; rewrite !app_length; lia). cbn [origin].
    rewrite skipn_app, skipn_all, Nat.sub_diag. cbn [skipn app]. now rewrite firstn_app, Nat.sub_diag, firstn_all, app_nil_r.
  - intros H. unfold src_slice. cbn [origin]. destruct (off <? 0) eqn:A; cbn [orb]; auto. destruct (off + size <? 0) eqn:B; cbn [orb]; auto.
    destruct (off >? blen b) eqn:C; cbn [orb]; auto. destruct (off + size >? blen b) eqn:D; auto. apply Z.ltb_ge in A, B. rewrite Z.gtb_ltb in C, D. apply Z.ltb_ge in C, D. lia.
  - intros H. unfold src_slice. cbn [origin]. destruct (Z.ltb_spec off 0); [lia|]. destruct (Z.ltb_spec (off + size) 0); [lia|]. rewrite !Z.gtb_ltb.
    destruct (Z.ltb_spec (blen b) off); [lia|]. destruct (Z.ltb_spec (blen b) (off + size)); [lia|]. cbn [orb]. unfold go_slice.
    destruct (Z.leb_spec off (off + size)); [lia|]. now rewrite andb_false_r.
Qed.
