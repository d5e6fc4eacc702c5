(** * Property C82: signals without channel axis

    Shapes are written with the last axis first: [[T]] is one signal of T samples, [[T; k]] an
    array (k, T).  [t_signal x m] is the signal at index [m] of the other axes, alone in an
    array of one channel; [bix br m] is the index that broadcasting uses for [m]. *)
From Coq Require Import Reals Lra.
From Verif Require Import Prelude ExtReal Sums Spec Helpers HelpersProofs PermProofs Linalg Cgd Metrics Shapes StatsProofs
  Witness Tensor TensorOps Rank RankRaise RankExamples.
Local Open Scope nat_scope.

(** sdr_loss(pairwise=False): one number for each pair of signals, the loss of that pair *)
Theorem C82_loss l o lx ly br be e ref est :
  tsh ref = lx :: br -> tsh est = ly :: be -> 0 < lx -> 0 < ly -> bc br be = Some e ->
  1 <= filter_length o -> (use_cg_iter o <> None -> filter_length o <> 1 -> length be <= length br) ->
  (use_cg_iter o = None -> filter_length o <> 1 ->
     match l with Np1 | Th1 => length br = length e | Np2 => e = [] | Th2 => br = e end) ->
  match t_sdr_loss l false o est ref with
  | Ok z => tsh z = e /\
      forall m, Forall2 lt m e -> sdr_loss (bk l) o (t_signal est (bix be m)) (t_signal ref (bix br m)) = Ok [tat z m]
  | Raise _ => Forall (lt 0) e -> exists m, Forall2 lt m e /\
      raises (sdr_loss (bk l) o (t_signal est (bix be m)) (t_signal ref (bix br m)))
  end.
Proof. exact (fun H1 H2 H3 H4 H5 H6 H7 H8 => t_sdr_loss_signals l o lx ly br be e ref est H1 H2 H3 H4 H5 H6 H7 H8). Qed.
Print Assumptions C82_loss.
Example C82_loss_example l : exists z, t_sdr_loss l false (plain_opts 2) rk_est rk_ref = Ok z /\ tsh z = [] /\
  tat z [] = Fin (10 * log10 (256 / 225)).
Proof. exact (rk_one l). Qed.
Example C82_loss_example_si l : exists z, t_sdr_loss l false (plain_opts 1) rk_ests rk_ref = Ok z /\ tsh z = [2] /\
  forall m, m < 2 -> sdr_loss (bk l) (plain_opts 1) (t_signal rk_ests [m]) (t_signal rk_ref []) = Ok [tat z [m]].
Proof. exact (rk_si l). Qed.

(** The other functions reject an array without channel axis, whatever the options *)
Theorem C82_rejected l sp o cs ref est : length (tsh ref) <= 1 \/ length (tsh est) <= 1 ->
  raises (t_sdr_loss l true o est ref) /\ raises (t_sdr l sp o cs ref est) /\
  raises (t_bss l sp o ref est) /\ raises (t_bss_noperm l o ref est).
Proof. exact (flat_rejected l sp o cs ref est). Qed.
Print Assumptions C82_rejected.
Example C82_rejected_example : length (tsh rk_ref) <= 1 \/ length (tsh rk_ests) <= 1.
Proof. left. cbn. lia. Qed.

(** Axes that do not broadcast are rejected *)
Theorem C82_mismatch l o lx ly br be ref est : tsh ref = lx :: br -> tsh est = ly :: be -> bc br be = None ->
  raises (t_sdr_loss l false o est ref).
Proof. exact (signals_mismatch l o lx ly br be ref est). Qed.
Print Assumptions C82_mismatch.
Example C82_mismatch_example : bc [2] [3] = None.
Proof. reflexivity. Qed.

(** Shapes left out by the last two hypotheses of C82_loss: an exception, unless the last
    of the other axes is as long as the filter *)
Theorem C82_left_out l o lx ly br be e ref est z :
  tsh ref = lx :: br -> tsh est = ly :: be -> 0 < lx -> 0 < ly -> bc br be = Some e -> 2 <= filter_length o ->
  match use_cg_iter o with
  | Some _ => length br < length be
  | None => ~ match l with Np1 | Th1 => length br = length e | Np2 => e = [] | Th2 => br = e end
  end ->
  t_sdr_loss l false o est ref = Ok z -> exists e', e = Nat.min (filter_length o) (n_fft lx ly) :: e'.
Proof. exact (misread_shape l o lx ly br be e ref est z). Qed.
Print Assumptions C82_left_out.
Example C82_left_out_example l : exists z, t_sdr_loss l false (plain_opts 2) rk_ests rk_ref = Ok z /\ tsh z = [2] /\
  tat z [0] = Fin (10 * log10 (400 / 81)).
Proof. exact (rk_two l). Qed.

(** In that case the values are wrong: ref = [3, 4] against [[1, 0], [0, 1]] with filter_length=2
    does not give the loss of [3, 4] against [1, 0] *)
Theorem C82_filter_length_channels_refuted l : exists z v,
  t_sdr_loss l false (plain_opts 2) rk_ests rk_ref = Ok z /\ tsh z = [2] /\
  sdr_loss (bk l) (plain_opts 2) (t_signal rk_ests [0]) (t_signal rk_ref []) = Ok [v] /\ tat z [0] <> v.
Proof. exact (rk_refuted l). Qed.
Print Assumptions C82_filter_length_channels_refuted.
