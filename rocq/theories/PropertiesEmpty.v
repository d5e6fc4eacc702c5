(** * Properties: recordings without samples (C90) *)
From Coq Require Import Reals Lra.
From Verif Require Import Prelude ExtReal Spec SpecSig Sums Helpers Linalg Metrics StatsProofs ProjTheorems Edge Witness SigExamples Empty EmptyProofs.
Local Open Scope nat_scope.

(** C90: no sample in the references and at most one in the estimates: the logarithm of the size of the transform
    raises ValueError, except with one tap. *)
Theorem C90_no_samples_raises b sp o cs ref est : filter_length o <> 1 -> a_len ref = 0 -> a_len est <= 1 ->
  pairwise_sdr_loss_any b o est ref = Raise ValueError /\ sdr_loss_any b o est ref = Raise ValueError /\
  sdr_any b sp o cs ref est = Raise ValueError /\ bss_any b sp o ref est = Raise ValueError /\
  bss_noperm_any b o ref est = Raise (if Nat.eqb (n_chan ref) (n_chan est) then ValueError else AssertionError).
Proof. exact (all_raise b sp o cs ref est). Qed.
Print Assumptions C90_no_samples_raises.
Example C90_no_samples_example b sp : sdr_any b sp (plain_opts 512) false (Arr 0 [[]; []]) (Arr 0 [[]; []]) = Raise ValueError.
Proof.
  assert (H : filter_length (plain_opts 512) <> 1) by discriminate.
  exact (proj1 (proj2 (proj2 (C90_no_samples_raises b sp (plain_opts 512) false (Arr 0 [[]; []]) (Arr 0 [[]; []]) H eq_refl (le_S _ _ (le_n 0)))))).
Qed.
(** In all other cases the logarithm is defined and the model of the other properties applies. *)
Theorem C90_other_lengths b sp o cs ref est : filter_length o = 1 \/ 0 < a_len ref \/ 2 <= a_len est ->
  pairwise_sdr_loss_any b o est ref = pairwise_sdr_loss b o est ref /\ sdr_loss_any b o est ref = sdr_loss b o est ref /\
  sdr_any b sp o cs ref est = sdr b sp o cs ref est /\ bss_any b sp o ref est = bss_eval_sources b sp o ref est /\
  bss_noperm_any b o ref est = bss_eval_sources_noperm b o ref est.
Proof. exact (all_same b sp o cs ref est). Qed.
Print Assumptions C90_other_lengths.

(** C90: estimates without samples are silent estimates, of any length up to that of the references. *)
Theorem C90_empty_estimate b sp o cs ref m k : filter_length o <> 1 -> 0 < a_len ref -> m <= a_len ref ->
  pairwise_sdr_loss_any b o (silent_arr 0 k) ref = pairwise_sdr_loss b o (silent_arr m k) ref /\
  sdr_loss_any b o (silent_arr 0 k) ref = sdr_loss b o (silent_arr m k) ref /\
  sdr_any b sp o cs ref (silent_arr 0 k) = sdr b sp o cs ref (silent_arr m k) /\
  bss_any b sp o ref (silent_arr 0 k) = bss_eval_sources b sp o ref (silent_arr m k) /\
  bss_noperm_any b o ref (silent_arr 0 k) = bss_eval_sources_noperm b o ref (silent_arr m k).
Proof. exact (all_estimates b sp o cs ref m k). Qed.
Print Assumptions C90_empty_estimate.
Example C90_empty_estimate_example b sp :
  sdr_any b sp (clamp_opts 2 20) false ex_ref (Arr 0 [[]]) = sdr b sp (clamp_opts 2 20) false ex_ref (Arr 5 [[Fin 0; Fin 0; Fin 0; Fin 0; Fin 0]]).
Proof.
  assert (H : filter_length (clamp_opts 2 20) <> 1) by discriminate.
  exact (proj1 (proj2 (proj2 (C90_empty_estimate b sp (clamp_opts 2 20) false ex_ref 5 1 H ltac:(simpl; lia) ltac:(simpl; lia))))).
Qed.

(** C90: references without samples, estimates with at least two.  The system is singular for the direct solver;
    with load_diag or use_cg_iter all pairs are the worst possible, and bss_eval_sources raises always. *)
Theorem C90_empty_reference b sp o cs k est : 2 <= filter_length o -> 0 < k -> 2 <= a_len est ->
  (use_cg_iter o = None -> loadv (load_diag o) = 0%R ->
   pairwise_sdr_loss_any b o est (silent_arr 0 k) = Raise LinAlgError /\ sdr_any b sp o cs (silent_arr 0 k) est = Raise LinAlgError) /\
  (use_cg_iter o <> None \/ loadv (load_diag o) <> 0%R -> (forall D, clamp_db o = Some D -> 0 <= D)%R ->
   exists loss, pairwise_sdr_loss_any b o est (silent_arr 0 k) = Ok loss /\
     forall c d y, wf est -> c < k -> has_chan est d y ->
       mat_of loss c d = match clamp_db o with None => PInf | Some D => Fin D end) /\
  (0 < n_chan est -> raises (bss_any b sp o (silent_arr 0 k) est)).
Proof. exact (empty_reference b sp o cs k est). Qed.
Print Assumptions C90_empty_reference.
Example C90_empty_reference_example b sp :
  sdr_any b sp (plain_opts 2) false (Arr 0 [[]; []]) ex_est = Raise LinAlgError /\ raises (bss_any b sp (plain_opts 2) (Arr 0 [[]; []]) ex_est).
Proof.
  destruct (C90_empty_reference b sp (plain_opts 2) false 2 ex_est ltac:(simpl; lia) ltac:(lia) ltac:(simpl; lia)) as (H & _ & H').
  split; [exact (proj2 (H eq_refl eq_refl))|apply H'; cbv; lia].
Qed.

(** C90: one tap.  Without samples every inner product is 0. *)
Theorem C90_one_tap b o m m' k k' : filter_length o = 1 -> m <= 1 -> m' <= 1 -> m = 0 \/ m' = 0 ->
  (forall D, clamp_db o = Some D -> 0 <= D)%R ->
  exists loss, pairwise_sdr_loss_any b o (silent_arr m' k') (silent_arr m k) = Ok loss /\
    forall c d, c < k -> d < k' -> mat_of loss c d = match clamp_db o with None => PInf | Some D => Fin D end.
Proof. exact (one_tap_loss b o m m' k k'). Qed.
Print Assumptions C90_one_tap.
Theorem C90_one_tap_bss b sp o k k' : filter_length o = 1 -> 0 < k -> 0 < k' ->
  bss_any b sp o (silent_arr 0 k) (silent_arr 0 k') =
  Raise (if Reqb (loadv (load_diag o)) 0 then LinAlgError else ValueError).
Proof. exact (one_tap_bss b sp o k k'). Qed.
Print Assumptions C90_one_tap_bss.
Theorem C90_one_tap_noperm b o k : filter_length o = 1 -> 0 < k -> (forall D, clamp_db o = Some D -> 0 <= D)%R ->
  bss_noperm_any b o (silent_arr 0 k) (silent_arr 0 k) =
  if Reqb (loadv (load_diag o)) 0 then Raise LinAlgError
  else let worst := xneg (match clamp_db o with None => PInf | Some D => Fin D end) in
       Ok (repeat worst k, repeat NaN k, repeat worst k).
Proof. exact (one_tap_noperm b o k). Qed.
Print Assumptions C90_one_tap_noperm.
Theorem C90_one_tap_mismatch b sp o cs ref est : filter_length o = 1 ->
  (a_len ref = 0 /\ 2 <= a_len est) \/ (a_len est = 0 /\ 2 <= a_len ref) ->
  pairwise_sdr_loss_any b o est ref = Raise (shape_exn b) /\ sdr_loss_any b o est ref = Raise (shape_exn b) /\
  sdr_any b sp o cs ref est = Raise (shape_exn b) /\ bss_any b sp o ref est = Raise (shape_exn b).
Proof. exact (one_tap_mismatch b sp o cs ref est). Qed.
Print Assumptions C90_one_tap_mismatch.
Example C90_one_tap_example b sp :
  bss_any b sp (plain_opts 1) (Arr 0 [[]]) (Arr 0 [[]; []]) = Raise LinAlgError /\
  bss_noperm_any b (Opts 1 None false (Some 30%R) (Some 1%R)) (Arr 0 [[]]) (Arr 0 [[]]) = Ok ([Fin (-30)], [NaN], [Fin (-30)]).
Proof.
  split.
  - change (bss_any b sp (plain_opts 1) (silent_arr 0 1) (silent_arr 0 2) = Raise LinAlgError).
    rewrite (C90_one_tap_bss b sp (plain_opts 1) 1 2 eq_refl ltac:(lia) ltac:(lia)).
    assert (E : Reqb (loadv (load_diag (plain_opts 1))) 0 = true) by (apply Reqb_true; reflexivity). rewrite E. reflexivity.
  - change (bss_noperm_any b (Opts 1 None false (Some 30%R) (Some 1%R)) (silent_arr 0 1) (silent_arr 0 1) = Ok ([Fin (-30)], [NaN], [Fin (-30)])).
    rewrite (C90_one_tap_noperm b (Opts 1 None false (Some 30%R) (Some 1%R)) 1 eq_refl ltac:(lia)).
    + assert (E : Reqb (loadv (load_diag (Opts 1 None false (Some 30%R) (Some 1%R)))) 0 = false) by (apply Reqb_false; simpl; lra).
      rewrite E. reflexivity.
    + simpl. intros D HD. injection HD as <-. lra.
Qed.
