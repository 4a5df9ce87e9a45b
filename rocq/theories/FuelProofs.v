(** More fuel never changes a finished run. *)
From Verif Require Import Base Scanner Syntax Engine Resolve Compile Parse.

Definition out_res (o : out) : res := fst (fst o).
Definition finished (o : out) : Prop := out_res o <> RFuel.

Definition extends (run run' : parser -> scope -> scanner -> nat -> out) : Prop :=
  forall p sc inp k, finished (run p sc inp k) -> run' p sc inp k = run p sc inp k.

Lemma with_escape_finished : forall c sc inp k cont cont',
  (finished (cont tt) -> cont' tt = cont tt) ->
  finished (with_escape c sc inp k cont) -> with_escape c sc inp k cont' = with_escape c sc inp k cont.
Proof.
  intros c sc inp k cont cont' H. unfold with_escape. destruct (cf_esc c); auto.
  destruct (eat_regexp _ _ inp 0); auto.
Qed.

Lemma seq_loop_ext : forall c run run' iscut rule, extends run run' ->
  forall ps ids sc inp k acc, finished (seq_loop c run iscut rule ids ps sc inp k acc) ->
  seq_loop c run' iscut rule ids ps sc inp k acc = seq_loop c run iscut rule ids ps sc inp k acc.
Proof.
  intros c run run' iscut rule X. induction ps as [|p ps IH]; intros ids sc inp k acc F; cbn [seq_loop] in *; auto.
  destruct (run p sc inp k) as [[r s'] k'] eqn:R.
  assert (G : r <> RFuel -> run' p sc inp k = (r, s', k')).
  { intros N. rewrite <- R. apply X. rewrite R. exact N. }
  destruct r; try (rewrite G by discriminate).
  - destruct (iscut p); [destruct (replace_cut c true sc k') as [[[? ?] ?] ?]|]; apply IH; auto.
  - auto.
  - auto.
  - exfalso. apply F. reflexivity.
Qed.

Lemma quant_loop_ext : forall run run' rule mn mx p, extends run run' ->
  forall fuel fuel' sc pc mc inp k acc, (fuel <= fuel')%nat ->
  finished (quant_loop run fuel rule mn mx p sc pc mc inp k acc) ->
  quant_loop run' fuel' rule mn mx p sc pc mc inp k acc = quant_loop run fuel rule mn mx p sc pc mc inp k acc.
Proof.
  intros run run' rule mn mx p X. induction fuel as [|fuel IH]; intros fuel' sc pc mc inp k acc L F.
  - destruct fuel'; cbn [quant_loop] in *; destruct (Nat.eqb mx 0 || Nat.ltb (length acc) mx); auto;
      exfalso; apply F; reflexivity.
  - destruct fuel' as [|fuel']; [lia|]. cbn [quant_loop] in *.
    destruct (Nat.eqb mx 0 || Nat.ltb (length acc) mx); auto.
    destruct (run p sc inp k) as [[r s'] k'] eqn:R.
    assert (G : r <> RFuel -> run' p sc inp k = (r, s', k')).
    { intros N. rewrite <- R. apply X. rewrite R. exact N. }
    destruct r; try (rewrite G by discriminate); auto.
    + apply IH; auto. lia.
    + exfalso. apply F. reflexivity.
Qed.

Lemma oneof_loop_ext : forall run run' rule, extends run run' ->
  forall ps i sc pc mc inp far k, finished (oneof_loop run rule i ps sc pc mc inp far k) ->
  oneof_loop run' rule i ps sc pc mc inp far k = oneof_loop run rule i ps sc pc mc inp far k.
Proof.
  intros run run' rule X. induction ps as [|p ps IH]; intros i sc pc mc inp far k F; cbn [oneof_loop] in *; auto.
  destruct (run p sc inp k) as [[r s'] k'] eqn:R.
  assert (G : r <> RFuel -> run' p sc inp k = (r, s', k')).
  { intros N. rewrite <- R. apply X. rewrite R. exact N. }
  destruct r; try (rewrite G by discriminate); auto.
  - destruct (not_my_fatal e mc); auto.
  - exfalso. apply F. reflexivity.
Qed.

Lemma parse_mono : forall c f f' e, (f <= f')%nat -> extends (parse c f e) (parse c f' e).
Proof.
  intros c. induction f as [|f IH]; intros f' e L p sc inp k F.
  - exfalso. apply F. reflexivity.
  - destruct f' as [|f']; [lia|]. assert (L' : (f <= f')%nat) by lia.
    assert (ST : forall e p sc inp k r s' k', parse c f e p sc inp k = (r, s', k') ->
      r <> RFuel -> parse c f' e p sc inp k = (r, s', k')).
    { intros e1 p1 sc1 inp1 k1 r s' k' R N. rewrite <- R. apply IH; auto. rewrite R. exact N. }
    destruct p; cbn [parse] in *; auto;
      try (revert F; apply with_escape_finished; intros F; cbv beta in *).
    + destruct (resolve_link e t) as [[q e']|]; auto. apply IH; auto.
    + apply seq_loop_ext; auto.
    + destruct (parse c f e p sc inp k) as [[r s'] k'] eqn:R.
      destruct r; try (rewrite (ST _ _ _ _ _ _ _ _ R) by discriminate; auto).
      exfalso. apply F. reflexivity.
    + destruct (parse c f e p sc inp k) as [[r s'] k'] eqn:R.
      destruct r; try (rewrite (ST _ _ _ _ _ _ _ _ R) by discriminate; auto).
      exfalso. apply F. reflexivity.
    + destruct (replace_cut c false sc k) as [[[? ?] ?] ?]. apply quant_loop_ext; auto.
    + destruct (replace_cut c false sc k) as [[[? ?] ?] ?]. apply oneof_loop_ext; auto.
    + assert (G : forall t check,
        finished (match term_parser (cf_eng c) t None ident with
          | COk q => match parse c f [] q sc inp k with
                     | (ROk v, inp', k') => if check v : bool then (ROk v, inp', k') else (RErr (EParse ident), inp', k')
                     | r => r
                     end
          | _ => (RPanic, inp, k)
          end) ->
        match term_parser (cf_eng c) t None ident with
          | COk q => match parse c f' [] q sc inp k with
                     | (ROk v, inp', k') => if check v : bool then (ROk v, inp', k') else (RErr (EParse ident), inp', k')
                     | r => r
                     end
          | _ => (RPanic, inp, k)
          end =
        match term_parser (cf_eng c) t None ident with
          | COk q => match parse c f [] q sc inp k with
                     | (ROk v, inp', k') => if check v : bool then (ROk v, inp', k') else (RErr (EParse ident), inp', k')
                     | r => r
                     end
          | _ => (RPanic, inp, k)
          end).
      { clear F. intros t check F. destruct (term_parser (cf_eng c) t None ident) as [q| |]; auto.
        destruct (parse c f [] q sc inp k) as [[r s'] k'] eqn:R.
        destruct r; try (rewrite (ST _ _ _ _ _ _ _ _ R) by discriminate; auto).
        exfalso. apply F. reflexivity. }
      destruct (lookup ident (svals sc)) as [v|].
      * destruct (term_from_ref_val v) as [t|]; [apply G; exact F|auto].
      * destruct default as [d|]; [apply (G (TS d) (fun _ => true)); exact F|auto].
    + apply IH; auto.
    + apply IH; auto.
Qed.

Lemma parse_more : forall c f f' e p sc inp k r s' k', parse c f e p sc inp k = (r, s', k') ->
  r <> RFuel -> (f <= f')%nat -> parse c f' e p sc inp k = (r, s', k').
Proof. intros. rewrite <- H. apply parse_mono; auto. unfold finished, out_res. rewrite H. auto. Qed.
