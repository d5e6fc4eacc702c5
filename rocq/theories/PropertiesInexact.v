(** * Properties: inexact statistics and solvers (C85) *)
From Coq Require Import Reals Lra.
From Verif Require Import Prelude ExtReal Spec SpecSig Sums Helpers Metrics StatsProofs PrepProofs ProjTheorems MetricTheorems Witness SigExamples
  OneRefExamples Inexact InexactExamples.
Local Open Scope nat_scope.

(** C85: a program computes correlations [xc'] and [acf'] of the normalised signals with errors up to delta and eta, a filter [sol'] that
    leaves a residual up to rho in the system it computed, and sums with an error up to gam.  lam bounds from below the energy
    of the filtered reference (plus load) per unit of energy of the filter. *)
Theorem C85_sdr b o ref est m c d x y M acf' xc' sol' c' delta eta rho gam lam : wf ref -> wf est ->
  use_cg_iter o = None -> (0 <= loadv (load_diag o))%R -> 2 <= filter_length o <= Nat.max (a_len ref) (a_len est) ->
  has_chan ref c x -> has_chan est d y -> a_len ref + filter_length o - 1 <= M -> a_len est <= M ->
  sdr_coh b o ref est = Ok m ->
  let L := filter_length o in
  let ux := unit_of (pre (zero_mean o) x) in let uy := unit_of (pre (zero_mean o) y) in
  (0 < lam)%R ->
  (forall v, (lam * energy L v <= energy M (fun t => Rsum L (fun k => v k * delayed ux k t)) + loadv (load_diag o) * energy L v)%R) ->
  (forall l, l < L -> (Rabs (xc' l - xcorr ux uy l) <= delta)%R) ->
  (forall l, l < L -> (Rabs (acf' l - (xcorr ux ux l + if Nat.eqb l 0 then loadv (load_diag o) else 0)) <= eta)%R) ->
  (forall i, i < L -> (Rabs (Rsum L (fun j => acf' (if (i <=? j)%nat then (j - i)%nat else (i - j)%nat) * sol' j) - xc' i) <= rho)%R) ->
  (Rabs (c' - Rsum L (fun l => xc' l * sol' l)) <= gam)%R ->
  let S := Rsum L (fun l => Rabs (sol' l)) in
  exists q, mat_of m c d = Fin q /\ (0 <= q <= 1)%R /\
    (Rabs (c' - q) <= gam + delta * S + (delta + rho + eta * S) * sqrt (INR L * q / lam))%R.
Proof. exact (sdr_inexact b o ref est m c d x y M acf' xc' sol' c' delta eta rho gam lam). Qed.
Print Assumptions C85_sdr.
Example C85_sdr_plain_example b : exists m q, sdr_coh b (plain_opts 2) mono_ref near_est = Ok m /\ mat_of m 0 0 = Fin q /\
  (Rabs (9998 / 10000 - q) <= 1 / 1000 * sqrt (2 * q / 1))%R.
Proof.
  destruct (near_plain_ok b) as [m H]. exists m.
  destruct (C85_sdr b (plain_opts 2) mono_ref near_est m 0 0 (exr 0) near_y 6 (fun l => nth l [1; 0]%R 0%R) (fun l => nth l [6 / 10; 8 / 10]%R 0%R)
    (fun l => nth l [601 / 1000; 799 / 1000]%R 0%R) (9998 / 10000) 0 0 (1 / 1000) 0 1
    mono_wf near_wf eq_refl ltac:(simpl; lra) ltac:(simpl; lia) mono_chan near_chan ltac:(simpl; lia) ltac:(simpl; lia) H ltac:(lra)) as (q & E & _ & B).
  - change (pre (zero_mean (plain_opts 2)) (exr 0)) with (exr 0). rewrite mono_unit. intros v. unfold energy, dot, delayed, smp. simpl. lra.
  - change (pre (zero_mean (plain_opts 2)) (exr 0)) with (exr 0). change (pre (zero_mean (plain_opts 2)) near_y) with near_y. rewrite mono_unit, near_unit.
    intros l Hl. simpl filter_length in Hl. destruct l as [|[|l]]; [| |lia]; unfold xcorr, smp; simpl; unfold Rabs; destruct Rcase_abs; lra.
  - change (pre (zero_mean (plain_opts 2)) (exr 0)) with (exr 0). rewrite mono_unit.
    intros l Hl. simpl filter_length in Hl. destruct l as [|[|l]]; [| |lia]; unfold xcorr, smp; simpl; unfold Rabs; destruct Rcase_abs; lra.
  - intros i Hi. simpl filter_length in *. destruct i as [|[|i]]; [| |lia]; simpl; unfold Rabs; destruct Rcase_abs; lra.
  - simpl. unfold Rabs; destruct Rcase_abs; lra.
  - exists q. split; auto. split; auto. eapply Rle_trans; [exact B|]. right. simpl filter_length. replace (INR 2) with 2%R by (simpl; lra). ring.
Qed.

(** C85: with load_diag the bound has only computed quantities. *)
Theorem C85_sdr_loaded b o ref est m c d x y acf' xc' sol' c' delta eta rho gam lam : wf ref -> wf est ->
  use_cg_iter o = None -> load_diag o = Some lam -> (0 < lam)%R -> 2 <= filter_length o <= Nat.max (a_len ref) (a_len est) ->
  has_chan ref c x -> has_chan est d y -> sdr_coh b o ref est = Ok m ->
  let L := filter_length o in
  let ux := unit_of (pre (zero_mean o) x) in let uy := unit_of (pre (zero_mean o) y) in
  (forall l, l < L -> (Rabs (xc' l - xcorr ux uy l) <= delta)%R) ->
  (forall l, l < L -> (Rabs (acf' l - (xcorr ux ux l + if Nat.eqb l 0 then lam else 0)) <= eta)%R) ->
  (forall i, i < L -> (Rabs (Rsum L (fun j => acf' (if (i <=? j)%nat then (j - i)%nat else (i - j)%nat) * sol' j) - xc' i) <= rho)%R) ->
  (Rabs (c' - Rsum L (fun l => xc' l * sol' l)) <= gam)%R ->
  let S := Rsum L (fun l => Rabs (sol' l)) in
  exists q, mat_of m c d = Fin q /\
    (Rabs (c' - q) <= gam + delta * S + (delta + rho + eta * S) * sqrt (INR L / lam))%R.
Proof. exact (sdr_inexact_loaded b o ref est m c d x y acf' xc' sol' c' delta eta rho gam lam). Qed.
Print Assumptions C85_sdr_loaded.
(** three decimals of the solution of the system with lags (0.6, 0.8) and (1.1, 0) *)
Example C85_sdr_example b : exists m q, sdr_coh b near_opts mono_ref near_est = Ok m /\ mat_of m 0 0 = Fin q /\
  (Rabs (9086 / 10000 - q) <= 5 / 10000 * sqrt (2 / (1 / 10)))%R.
Proof.
  destruct (near_ok b) as [m H]. exists m.
  destruct (C85_sdr_loaded b near_opts mono_ref near_est m 0 0 (exr 0) near_y (fun l => nth l [11 / 10; 0]%R 0%R) (fun l => nth l [6 / 10; 8 / 10]%R 0%R)
    (fun l => nth l [545 / 1000; 727 / 1000]%R 0%R) (9086 / 10000) 0 0 (5 / 10000) 0 (1 / 10)
    mono_wf near_wf eq_refl eq_refl ltac:(lra) ltac:(simpl; lia) mono_chan near_chan H) as (q & E & B).
  - change (pre (zero_mean near_opts) (exr 0)) with (exr 0). change (pre (zero_mean near_opts) near_y) with near_y. rewrite mono_unit, near_unit.
    intros l Hl. simpl filter_length in Hl. destruct l as [|[|l]]; [| |lia]; unfold xcorr, smp; simpl; unfold Rabs; destruct Rcase_abs; lra.
  - change (pre (zero_mean near_opts) (exr 0)) with (exr 0). rewrite mono_unit.
    intros l Hl. simpl filter_length in Hl. destruct l as [|[|l]]; [| |lia]; unfold xcorr, smp; simpl; unfold Rabs; destruct Rcase_abs; lra.
  - intros i Hi. simpl filter_length in *. destruct i as [|[|i]]; [| |lia]; simpl; unfold Rabs; destruct Rcase_abs; lra.
  - simpl. unfold Rabs; destruct Rcase_abs; lra.
  - exists q. split; auto. split; auto. eapply Rle_trans; [exact B|]. right. simpl filter_length. replace (INR 2) with 2%R by (simpl; lra). ring.
Qed.

(** C85: the SAR, whose system has the delays of all the references. *)
Theorem C85_sar_loaded b o ref est m sar d xs y M A' b' sol' c' delta eta rho gam lam : wf ref -> wf est ->
  use_cg_iter o = None -> load_diag o = Some lam -> (0 < lam)%R -> 2 <= filter_length o <= Nat.max (a_len ref) (a_len est) ->
  has_chans ref xs -> 0 < n_chan ref -> has_chan est d y -> a_len ref + filter_length o - 1 <= M -> a_len est <= M ->
  sq_cos b o ref est = Ok (m, sar) ->
  let K := filter_length o * n_chan ref in
  let a := all_delays (n_chan ref) (fun c => unit_of (pre (zero_mean o) (xs c))) in
  (forall i, i < K -> (Rabs (b' i - dot M (a i) (smp (unit_of (pre (zero_mean o) y)))) <= delta)%R) ->
  (forall i j, i < K -> j < K -> (Rabs (A' i j - (dot M (a i) (a j) + if Nat.eqb i j then lam else 0)) <= eta)%R) ->
  (forall i, i < K -> (Rabs (Rsum K (fun j => A' i j * sol' j) - b' i) <= rho)%R) ->
  (Rabs (c' - Rsum K (fun i => b' i * sol' i)) <= gam)%R ->
  let S := Rsum K (fun i => Rabs (sol' i)) in
  exists q, nth d sar NaN = Fin q /\
    (Rabs (c' - q) <= gam + delta * S + (delta + rho + eta * S) * sqrt (INR K / lam))%R.
Proof. exact (sar_inexact_loaded b o ref est m sar d xs y M A' b' sol' c' delta eta rho gam lam). Qed.
Print Assumptions C85_sar_loaded.
Example C85_sar_example b : exists m sar q, sq_cos b near_opts mono_ref near_est = Ok (m, sar) /\ nth 0 sar NaN = Fin q /\
  (Rabs (9086 / 10000 - q) <= 5 / 10000 * sqrt (2 / (1 / 10)))%R.
Proof.
  destruct (near_sar_ok b) as (m & sar & H). exists m, sar.
  destruct (C85_sar_loaded b near_opts mono_ref near_est m sar 0 (fun _ => exr 0) near_y 6 (fun i j => if Nat.eqb i j then 11 / 10 else 0)%R
    (fun l => nth l [6 / 10; 8 / 10]%R 0%R) (fun l => nth l [545 / 1000; 727 / 1000]%R 0%R) (9086 / 10000) 0 0 (5 / 10000) 0 (1 / 10)
    mono_wf near_wf eq_refl eq_refl ltac:(lra) ltac:(simpl; lia) mono_chans ltac:(cbv; lia) near_chan ltac:(simpl; lia) ltac:(simpl; lia) H) as (q & E & B).
  - change (pre (zero_mean near_opts) (exr 0)) with (exr 0). change (pre (zero_mean near_opts) near_y) with near_y. rewrite mono_unit, near_unit.
    intros l Hl. change (filter_length near_opts * n_chan mono_ref) with 2 in Hl. destruct l as [|[|l]]; [| |lia]; unfold dot, all_delays, delayed, smp; simpl; unfold Rabs; destruct Rcase_abs; lra.
  - change (pre (zero_mean near_opts) (exr 0)) with (exr 0). rewrite mono_unit.
    intros i j Hi Hj. change (filter_length near_opts * n_chan mono_ref) with 2 in Hi, Hj. destruct i as [|[|i]]; [| |lia]; (destruct j as [|[|j]]; [| |lia]);
      unfold dot, all_delays, delayed, smp; simpl; unfold Rabs; destruct Rcase_abs; lra.
  - intros i Hi. change (filter_length near_opts * n_chan mono_ref) with 2 in *. destruct i as [|[|i]]; [| |lia]; simpl; unfold Rabs; destruct Rcase_abs; lra.
  - change (filter_length near_opts * n_chan mono_ref) with 2. simpl. unfold Rabs; destruct Rcase_abs; lra.
  - exists q. split; auto. split; auto. eapply Rle_trans; [exact B|]. right. change (filter_length near_opts * n_chan mono_ref) with 2.
    replace (INR 2) with 2%R by (simpl; lra). ring.
Qed.

(** C85: clamped losses from coherences with errors up to e: the total loss of the selected assignment, and the reported values. *)
Theorem C85_selection b sp o ref est m D coh' e : lsa_contract sp -> clamp_db o = Some D -> (0 <= D)%R ->
  sdr_coh b o ref est = Ok m ->
  (forall c d, c < n_chan ref -> d < n_chan est -> exists q, mat_of m c d = Fin q /\ (Rabs (coh' c d - q) <= e)%R) ->
  let eps := (Rpower 10 (- D / 10) / (1 + Rpower 10 (- D / 10)))%R in
  let err := (10 / (ln 10 * (eps * (1 - eps))) * e)%R in
  exists loss vals perm vals' perm',
    pairwise_sdr_loss b o est ref = Ok loss /\ sdr b sp o true ref est = Ok (vals, perm) /\
    solve_permutation b sp (n_chan ref) (n_chan est) (fun c d => coherence_to_neg_sdr (Some D) (Fin (coh' c d))) [] = Ok (vals', [], perm') /\
    let N := Nat.min (n_chan ref) (n_chan est) in
    let total := fun perm => total_cost (fun i j => to_R (mat_of loss i j)) (matching (n_chan ref) (n_chan est) perm) in
    (total perm <= total perm' <= total perm + 2 * INR N * err)%R /\
    (Rabs (sumR (map to_R vals') - sumR (map to_R vals)) <= INR N * err)%R /\
    (forall i, i < N -> exists v v', at_pair (mat_of loss) (pair_at (n_chan ref) (n_chan est) perm' i) = Fin v /\
       nth i vals' NaN = Fin v' /\ (Rabs (v' - v) <= err)%R).
Proof. exact (sdr_selection_inexact b sp o ref est m D coh' e). Qed.
Print Assumptions C85_selection.
Example C85_selection_example b : exists m, sdr_coh b near_opts mono_ref near_est = Ok m /\ clamp_db near_opts = Some 30%R /\
  exists coh', forall c d, c < n_chan mono_ref -> d < n_chan near_est -> exists q, mat_of m c d = Fin q /\ (Rabs (coh' c d - q) <= 25 / 10000)%R.
Proof.
  destruct (C85_sdr_example b) as (m & q & H & E & B). exists m. split; auto. split; auto. exists (fun _ _ => 9086 / 10000)%R.
  intros c d Hc Hd. change (n_chan mono_ref) with 1 in Hc. change (n_chan near_est) with 1 in Hd.
  assert (c = 0) by lia. assert (d = 0) by lia. subst c d. exists q. split; auto. eapply Rle_trans; [exact B|].
  assert (sqrt (2 / (1 / 10)) <= 5)%R; [|lra]. rewrite <- (sqrt_pow2 5) by lra. apply sqrt_le_1_alt. lra.
Qed.

(** C85: the three values of bss_eval_sources; a0 bounds the computed SAR coherences from below. *)
Theorem C85_bss_selection b sp o ref est m sar D coh' sar' e1 e2 a0 xs ys : lsa_contract sp -> wf ref -> wf est ->
  use_cg_iter o = None -> (0 <= loadv (load_diag o))%R -> clamp_db o = Some D -> (0 <= D)%R ->
  2 <= filter_length o \/ (filter_length o = 1 /\ a_len ref = a_len est /\ loadv (load_diag o) = 0%R) ->
  has_chans ref xs -> has_chans est ys -> 0 < n_chan ref -> sq_cos b o ref est = Ok (m, sar) ->
  (forall c d, c < n_chan ref -> d < n_chan est -> exists q, mat_of m c d = Fin q /\ (Rabs (coh' c d - q) <= e1)%R) ->
  (forall d, d < n_chan est -> exists a, nth d sar NaN = Fin a /\ (Rabs (sar' d - a) <= e2)%R) ->
  (forall d, d < n_chan est -> (a0 <= sar' d)%R) -> (e2 < a0)%R ->
  let f := coherence_to_neg_sdr (Some D) in
  let eps := (Rpower 10 (- D / 10) / (1 + Rpower 10 (- D / 10)))%R in
  let slope := (10 / (ln 10 * (eps * (1 - eps))))%R in
  exists out perm s' i' a' perm', bss_eval_sources b sp o ref est = Ok (out, perm) /\
    solve_permutation b sp (n_chan ref) (n_chan est) (fun c d => f (Fin (coh' c d / sar' d)))
      [(fun c d => f (Fin (coh' c d))); (fun c d => f (Fin (sar' d)))] = Ok (i', [s'; a'], perm') /\
    let '(nsdr, nsir, nsar) := bss_mats o (m, sar) in
    let N := Nat.min (n_chan ref) (n_chan est) in
    let total := fun perm => total_cost (fun c d => to_R (nsir c d)) (matching (n_chan ref) (n_chan est) perm) in
    let near := fun (M : nat -> nat -> xr) (vs : list xr) e => forall i, i < N -> exists v v',
      at_pair M (pair_at (n_chan ref) (n_chan est) perm' i) = Fin v /\ nth i vs NaN = Fin v' /\ (Rabs (v' - v) <= slope * e)%R in
    (total perm <= total perm' <= total perm + 2 * INR N * (slope * ((e1 + e2) / a0)))%R /\
    near nsdr s' e1 /\ near nsir i' ((e1 + e2) / a0)%R /\ near nsar a' e2.
Proof. exact (bss_selection_inexact b sp o ref est m sar D coh' sar' e1 e2 a0 xs ys). Qed.
Print Assumptions C85_bss_selection.
Example C85_bss_example b : exists m sar, sq_cos b (clamp_opts 2 30) ex_ref ex_est = Ok (m, sar) /\
  (forall c d, c < 2 -> d < 2 -> exists q, mat_of m c d = Fin q /\ (Rabs (ex_coh' c d - q) <= 1 / 1000)%R) /\
  (forall d, d < 2 -> exists a, nth d sar NaN = Fin a /\ (Rabs (ex_sar' d - a) <= 1 / 1000)%R) /\
  (forall d, d < 2 -> (8 / 10 <= ex_sar' d)%R).
Proof.
  destruct (ex_sq_cos_ok b) as [[m sar] H]. exists m, sar. split; [exact H|].
  destruct (ex_near b m sar H) as [H1 H2]. split; auto. split; auto.
  intros d Hd. destruct d as [|[|d]]; try lia; unfold ex_sar'; simpl; lra.
Qed.
