(** * Properties: filter_length and use_cg_iter with any integer, filter_length = None (C91) *)
From Coq Require Import Reals Lra.
From Verif Require Import Prelude ExtReal Spec SpecSig Sums Helpers Linalg Metrics StatsProofs PrepProofs ProjTheorems Witness SigExamples FastPath IntOpts IntOptsProofs IntOptsCg.
Local Open Scope nat_scope.

(** C91: the model of the other properties for positive lengths. *)
Theorem C91_positive b sp o cs ref est l : z_length o = Some l -> (0 < l)%Z ->
  pairwise_sdr_loss_z b o est ref = pairwise_sdr_loss b (at_length o (Z.to_nat l)) est ref /\
  sdr_z b sp o cs ref est = sdr b sp (at_length o (Z.to_nat l)) cs ref est /\
  bss_z b sp o ref est = bss_eval_sources b sp (at_length o (Z.to_nat l)) ref est /\
  bss_noperm_z b o ref est = bss_eval_sources_noperm b (at_length o (Z.to_nat l)) ref est.
Proof. exact (length_positive b sp o cs ref est l). Qed.
Print Assumptions C91_positive.

(** C91: filter_length = None is the length of the references for the SDR; bss_eval_sources raises. *)
Theorem C91_none b sp o cs ref est : z_length o = None -> 2 <= a_len ref ->
  pairwise_sdr_loss_z b o est ref = pairwise_sdr_loss b (at_length o (a_len ref)) est ref /\
  sdr_z b sp o cs ref est = sdr b sp (at_length o (a_len ref)) cs ref est.
Proof. exact (length_none b sp o cs ref est). Qed.
Print Assumptions C91_none.
Theorem C91_none_bss b sp o ref est : z_length o = None -> 0 < a_len ref ->
  let e := match z_iter o with None => shape_exn b | Some _ => AssertionError end in
  bss_z b sp o ref est = Raise e /\ bss_noperm_z b o ref est = Raise (if Nat.eqb (n_chan ref) (n_chan est) then e else AssertionError).
Proof. exact (length_none_bss b sp o ref est). Qed.
Print Assumptions C91_none_bss.
Example C91_none_example b sp :
  sdr_z b sp (ZOpts None None false None None) false ex_ref ex_est = sdr b sp (plain_opts 5) false ex_ref ex_est /\
  bss_z b sp (ZOpts None None false None None) ex_ref ex_est = Raise (shape_exn b).
Proof.
  split.
  - exact (proj2 (C91_none b sp (ZOpts None None false None None) false ex_ref ex_est eq_refl ltac:(simpl; lia))).
  - exact (proj1 (C91_none_bss b sp (ZOpts None None false None None) ex_ref ex_est eq_refl ltac:(simpl; lia))).
Qed.

(** C91: no taps. *)
Theorem C91_zero b sp o cs ref est : z_length o = Some 0%Z ->
  let e := match z_iter o, b with
           | None, NumPy => LinAlgError | None, Torch => RuntimeError
           | Some _, _ => match b with NumPy => ValueError | Torch => RuntimeError end
           end in
  let e' := match z_load o with Some _ => IndexError | None => e end in
  pairwise_sdr_loss_z b o est ref = Raise e' /\ sdr_z b sp o cs ref est = Raise e' /\ bss_z b sp o ref est = Raise e /\
  bss_noperm_z b o ref est = Raise (if Nat.eqb (n_chan ref) (n_chan est) then e else AssertionError).
Proof. exact (length_zero b sp o cs ref est). Qed.
Print Assumptions C91_zero.

(** C91: a negative filter_length = -j: n_fft - j taps for the SDR. *)
Theorem C91_negative b sp o cs ref est j : let nf := n_fft (a_len ref) (a_len est) in
  z_length o = Some (- Z.of_nat j)%Z -> 0 < j -> j + 1 < nf ->
  pairwise_sdr_loss_z b o est ref = pairwise_sdr_loss b (at_length o (nf - j)) est ref /\
  sdr_z b sp o cs ref est = sdr b sp (at_length o (nf - j)) cs ref est.
Proof. exact (length_negative b sp o cs ref est j). Qed.
Print Assumptions C91_negative.
Example C91_negative_example b sp :
  sdr_z b sp (ZOpts (Some (-1)%Z) None false None None) false ex_ref ex_est = sdr b sp (plain_opts 15) false ex_ref ex_est.
Proof. exact (proj2 (C91_negative b sp (ZOpts (Some (-1)%Z) None false None None) false ex_ref ex_est 1 eq_refl (le_n 1) ltac:(change (n_fft (a_len ex_ref) (a_len ex_est)) with 16; lia))). Qed.
(** bss_eval_sources then raises, unless j is half of n_fft. *)
Theorem C91_negative_bss b sp o ref est j : let nf := n_fft (a_len ref) (a_len est) in
  z_length o = Some (- Z.of_nat j)%Z -> 0 < j -> j < nf ->
  (nf = 2 * j -> 1 < j ->
   bss_z b sp o ref est = bss_eval_sources b sp (at_length o j) ref est /\
   bss_noperm_z b o ref est = bss_eval_sources_noperm b (at_length o j) ref est) /\
  (nf <> 2 * j ->
   let e := if Nat.leb (2 * nf) (3 * j)
            then match z_iter o, b with
                 | None, NumPy => LinAlgError | None, Torch => RuntimeError
                 | Some _, _ => match b with NumPy => ValueError | Torch => RuntimeError end
                 end
            else match z_iter o with None => shape_exn b | Some _ => AssertionError end in
   bss_z b sp o ref est = Raise e /\ bss_noperm_z b o ref est = Raise (if Nat.eqb (n_chan ref) (n_chan est) then e else AssertionError)).
Proof. exact (length_negative_bss b sp o ref est j). Qed.
Print Assumptions C91_negative_bss.
Example C91_negative_bss_example b sp :
  bss_z b sp (ZOpts (Some (-8)%Z) None false None None) ex_ref ex_est = bss_eval_sources b sp (plain_opts 8) ex_ref ex_est /\
  bss_z b sp (ZOpts (Some (-1)%Z) None false None None) ex_ref ex_est = Raise (shape_exn b).
Proof.
  split.
  - exact (proj1 (proj1 (C91_negative_bss b sp (ZOpts (Some (-8)%Z) None false None None) ex_ref ex_est 8 eq_refl ltac:(lia)
      ltac:(change (n_fft (a_len ex_ref) (a_len ex_est)) with 16; lia)) eq_refl ltac:(lia))).
  - exact (proj1 (proj2 (C91_negative_bss b sp (ZOpts (Some (-1)%Z) None false None None) ex_ref ex_est 1 eq_refl ltac:(lia)
      ltac:(change (n_fft (a_len ex_ref) (a_len ex_est)) with 16; lia)) ltac:(change (n_fft (a_len ex_ref) (a_len ex_est)) with 16; lia))).
Qed.
Theorem C91_negative_large b sp o cs ref est j : n_fft (a_len ref) (a_len est) <= j -> z_length o = Some (- Z.of_nat j)%Z ->
  let e := match z_load o with
           | Some _ => IndexError
           | None => match z_iter o, b with
                     | None, NumPy => LinAlgError | None, Torch => RuntimeError
                     | Some _, _ => match b with NumPy => ValueError | Torch => RuntimeError end
                     end
           end in
  pairwise_sdr_loss_z b o est ref = Raise e /\ sdr_z b sp o cs ref est = Raise e /\ bss_z b sp o ref est = Raise e /\
  bss_noperm_z b o ref est = Raise (if Nat.eqb (n_chan ref) (n_chan est) then e else AssertionError).
Proof. exact (length_negative_large b sp o cs ref est j). Qed.
Print Assumptions C91_negative_large.
Example C91_negative_large_example b sp :
  sdr_z b sp (ZOpts (Some (-512)%Z) (Some 10%Z) false None None) false ex_ref ex_est = Raise (match b with NumPy => ValueError | Torch => RuntimeError end).
Proof.
  exact (proj1 (proj2 (C91_negative_large b sp (ZOpts (Some (-512)%Z) (Some 10%Z) false None None) false ex_ref ex_est 512
    ltac:(change (n_fft (a_len ex_ref) (a_len ex_est)) with 16; lia) eq_refl))).
Qed.
(** One lag left: what filter_length = 1 gives. *)
Theorem C91_one_lag b sp o cs ref est :
  z_length o = None /\ a_len ref = 1 \/
  z_length o = Some (1 - Z.of_nat (n_fft (a_len ref) (a_len est)))%Z /\ 2 <= n_fft (a_len ref) (a_len est) ->
  z_iter o = None -> z_load o = None -> wf ref -> wf est -> a_len ref = a_len est ->
  (forall c x, has_chan ref c x -> (norm_eps <= norm2 (pre (z_mean o) x))%R) ->
  pairwise_sdr_loss_z b o est ref = pairwise_sdr_loss b (at_length o 1) est ref /\ sdr_z b sp o cs ref est = sdr b sp (at_length o 1) cs ref est.
Proof. exact (one_lag b sp o cs ref est). Qed.
Print Assumptions C91_one_lag.
Example C91_one_lag_example b sp :
  sdr_z b sp (ZOpts (Some (-15)%Z) None false None None) false ex_ref ex_ref = sdr b sp (plain_opts 1) false ex_ref ex_ref.
Proof.
  exact (proj2 (C91_one_lag b sp (ZOpts (Some (-15)%Z) None false None None) false ex_ref ex_ref
    (or_intror (conj eq_refl (proj1 (Nat.ltb_lt 1 16) eq_refl))) eq_refl eq_refl ex_ref_wf ex_ref_wf eq_refl ex_ref_norms)).
Qed.

(** C91: use_cg_iter <= 0: no iteration, the worst value for every pair; bss_eval_sources raises (SIR 0/0). *)
Theorem C91_no_iterations b sp o ref est l k : z_length o = Some l -> (2 <= l)%Z -> z_iter o = Some k -> (k <= 0)%Z ->
  (forall D, z_clamp o = Some D -> 0 <= D)%R -> wf ref -> wf est ->
  let worst := match z_clamp o with None => PInf | Some D => Fin D end in
  (exists loss, pairwise_sdr_loss_z b o est ref = Ok loss /\
    forall c d x y, has_chan ref c x -> has_chan est d y -> mat_of loss c d = worst) /\
  (forall x y, has_chan ref 0 x -> has_chan est 0 y -> raises (bss_z b sp o ref est)) /\
  (forall sdr sir sar c x y, bss_noperm_z b o ref est = Ok (sdr, sir, sar) -> has_chan ref c x -> has_chan est c y ->
    nth c sdr NaN = xneg worst /\ nth c sir NaN = NaN).
Proof. exact (no_iterations b sp o ref est l k). Qed.
Print Assumptions C91_no_iterations.
Example C91_no_iterations_example b : exists loss,
  pairwise_sdr_loss_z b (ZOpts (Some 2%Z) (Some (-3)%Z) false (Some 30%R) None) ex_ref ex_ref = Ok loss /\
  mat_of loss 0 0 = Fin 30.
Proof.
  destruct (C91_no_iterations b (fun _ _ _ => []) (ZOpts (Some 2%Z) (Some (-3)%Z) false (Some 30%R) None) ex_ref ex_ref 2 (-3)
    eq_refl ltac:(lia) eq_refl ltac:(lia) ltac:(simpl; intros D HD; injection HD as <-; lra) ex_ref_wf ex_ref_wf) as ((loss & E & H) & _).
  exists loss. split; [exact E|]. exact (H 0 0 _ _ (ex_ref_chan 0 ltac:(lia)) (ex_ref_chan 0 ltac:(lia))).
Qed.
