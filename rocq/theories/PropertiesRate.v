(** * Property C63: rate of convergence of the conjugate gradient path *)
From Coq Require Import Reals Lra.
From Verif Require Import Prelude ExtReal SpecSig Sums Helpers Linalg LinalgProofs Cgd Metrics StatsProofs LeastSq PrepProofs
  MetricsProofs MetricTheorems CgdOps CgdPrecond CgProofs CgCirc CgTheorems CgRate CgRateSdr CgRateExamples ProjTheorems Invariance Witness SigExamples Glue Symmetry Solvability.
Local Open Scope nat_scope.

(** any symmetric positive semidefinite system and preconditioner *)
Theorem C63_rate n A P M Q b x0 xs u0 :
  acts_as n A M -> acts_as n P Q -> length x0 = n ->
  (forall v, length v = n -> length (P v) = n) ->
  symmetric_mat n M -> symmetric_mat n Q -> psd_mat n M -> psd_mat n Q ->
  (forall i, i < n -> Rmv n M xs i = nth i b 0%R) ->
  (forall i, i < n -> Rmv n Q u0 i = (smp x0 i - xs i)%R) ->
  forall mu Lam, (0 < mu)%R -> (mu <= Lam)%R ->
  (forall u, mu * Rsum n (fun i => u i * Rmv n Q u i) <=
             Rsum n (fun i => Rmv n Q u i * Rmv n M (Rmv n Q u) i))%R ->
  (forall u, Rsum n (fun i => Rmv n Q u i * Rmv n M (Rmv n Q u) i) <=
             Lam * Rsum n (fun i => u i * Rmv n Q u i))%R ->
  let error x := Rsum n (fun i => (x i - xs i) * Rmv n M (fun j => x j - xs j) i)%R in
  forall k, (forall j, j < k -> ~ zero_vec n (cg_r (cg_run n A P b x0 j)) -> inactive n A P b x0 j) ->
  (error (smp (cg_x (cg_run n A P b x0 k))) <= 2 * (1 - sqrt (mu / Lam)) ^ k * error (smp x0))%R.
Proof. exact (rate n A P M Q b x0 xs u0). Qed.
Print Assumptions C63_rate.
(** with the safeguards of the code, no condition on the run *)
Theorem C63_rate_guarded n A P M Q b x0 xs u0 :
  acts_as n A M -> acts_as n P Q -> length x0 = n ->
  (forall v, length v = n -> length (P v) = n) ->
  symmetric_mat n M -> symmetric_mat n Q -> psd_mat n M -> psd_mat n Q ->
  (forall i, i < n -> Rmv n M xs i = nth i b 0%R) ->
  (forall i, i < n -> Rmv n Q u0 i = (smp x0 i - xs i)%R) ->
  forall mu Lam, (0 < mu)%R -> (mu <= Lam)%R ->
  (forall u, mu * Rsum n (fun i => u i * Rmv n Q u i) <=
             Rsum n (fun i => Rmv n Q u i * Rmv n M (Rmv n Q u) i))%R ->
  (forall u, Rsum n (fun i => Rmv n Q u i * Rmv n M (Rmv n Q u) i) <=
             Lam * Rsum n (fun i => u i * Rmv n Q u i))%R ->
  let error x := Rsum n (fun i => (x i - xs i) * Rmv n M (fun j => x j - xs j) i)%R in
  forall k, (error (smp (cg_x (cg_run n A P b x0 k))) <=
    Rmax (2 * (1 - sqrt (mu / Lam)) ^ k * error (smp x0)) (/ 10 ^ 6 / (mu * Rmin 1 mu)))%R.
Proof. exact (rate_total n A P M Q b x0 xs u0). Qed.
Print Assumptions C63_rate_guarded.

(** the solver of the code on a positive definite Toeplitz system *)
Theorem C63_toeplitz_rate b acf xc xs mu Lam :
  0 < length acf -> length xc = length acf ->
  psd_mat (length acf) (ent (toeplitz b acf)) -> nonsingular (length acf) (ent (toeplitz b acf)) ->
  (forall i, i < length acf -> Rmv (length acf) (ent (toeplitz b acf)) xs i = nth i xc 0%R) ->
  (0 < mu)%R -> (mu <= Lam)%R -> preconditioned_between b acf mu Lam ->
  forall it s, toeplitz_cg b acf xc it = Ok s ->
  let error x := Rsum (length acf) (fun i => (x i - xs i) *
    Rmv (length acf) (ent (toeplitz b acf)) (fun j => x j - xs j) i)%R in
  let start := Rsum (length acf) (fun i => xs i * Rmv (length acf) (ent (toeplitz b acf)) xs i)%R in
  (error (smp s) <= Rmax (2 * (1 - sqrt (mu / Lam)) ^ it * start) (/ 10 ^ 6 / (mu * Rmin 1 mu)))%R.
Proof. exact (toep_rate_total b acf xc xs mu Lam). Qed.
Print Assumptions C63_toeplitz_rate.
Example C63_toeplitz_example b : let acf := [2; 1; 0]%R in
  psd_mat 3 (ent (toeplitz b acf)) /\ nonsingular 3 (ent (toeplitz b acf)) /\
  preconditioned_between b acf (/ 8) 8.
Proof. exact (tri_example b). Qed.

(** the SDR with a fixed number of iterations against the SDR with the direct solver *)
Theorem C63_sdr_rate b o it ref est m m' c d x y : wf ref -> wf est ->
  (0 <= loadv (load_diag o))%R -> 2 <= filter_length o ->
  has_chan ref c x -> has_chan est d y ->
  sdr_coh b (with_cg o (Some it)) ref est = Ok m ->
  sdr_coh b (with_cg o None) ref est = Ok m' ->
  forall mu Lam, (0 < mu)%R -> (mu <= Lam)%R ->
  preconditioned_between b (sdr_acf o (n_fft (a_len ref) (a_len est)) (unit_of (pre (zero_mean o) x))) mu Lam ->
  never_guarded o ref est it ->
  exists q q', mat_of m c d = Fin q /\ mat_of m' c d = Fin q' /\
    ((1 - 2 * (1 - sqrt (mu / Lam)) ^ it) * q' <= q <= q')%R.
Proof. exact (sdr_rate b o it ref est m m' c d x y). Qed.
Print Assumptions C63_sdr_rate.
Theorem C63_sdr_rate_guarded b o it ref est m m' c d x y : wf ref -> wf est ->
  (0 <= loadv (load_diag o))%R -> 2 <= filter_length o ->
  has_chan ref c x -> has_chan est d y ->
  sdr_coh b (with_cg o (Some it)) ref est = Ok m ->
  sdr_coh b (with_cg o None) ref est = Ok m' ->
  forall mu Lam, (0 < mu)%R -> (mu <= Lam)%R ->
  preconditioned_between b (sdr_acf o (n_fft (a_len ref) (a_len est)) (unit_of (pre (zero_mean o) x))) mu Lam ->
  exists q q', mat_of m c d = Fin q /\ mat_of m' c d = Fin q' /\
    ((q - q') ^ 2 <= q' * Rmax (2 * (1 - sqrt (mu / Lam)) ^ it * q') (/ 10 ^ 6 / (mu * Rmin 1 mu)))%R.
Proof. exact (sdr_rate_total b o it ref est m m' c d x y). Qed.
Print Assumptions C63_sdr_rate_guarded.

(** bounds in terms of the filter length and the diagonal loading only *)
Theorem C63_iterations b o it ref est m m' c d x y delta lam : wf ref -> wf est ->
  load_diag o = Some lam -> (/ 10 ^ 3 <= lam)%R -> 2 <= filter_length o ->
  has_chan ref c x -> has_chan est d y ->
  sdr_coh b (with_cg o (Some it)) ref est = Ok m ->
  sdr_coh b (with_cg o None) ref est = Ok m' ->
  never_guarded o ref est it ->
  (0 < delta)%R -> ((INR (filter_length o) + lam) / lam * ln (2 / delta) <= INR it)%R ->
  exists q q', mat_of m c d = Fin q /\ mat_of m' c d = Fin q' /\ ((1 - delta) * q' <= q <= q')%R.
Proof. exact (sdr_iterations b o it ref est m m' c d x y delta lam). Qed.
Print Assumptions C63_iterations.
Theorem C63_loaded_guarded b o it ref est m m' c d x y lam : wf ref -> wf est ->
  load_diag o = Some lam -> (/ 10 ^ 3 <= lam)%R -> 2 <= filter_length o ->
  has_chan ref c x -> has_chan est d y ->
  sdr_coh b (with_cg o (Some it)) ref est = Ok m ->
  sdr_coh b (with_cg o None) ref est = Ok m' ->
  let K := INR (Nat.min (filter_length o) (n_fft (a_len ref) (a_len est))) in
  exists q q', mat_of m c d = Fin q /\ mat_of m' c d = Fin q' /\
    ((q - q') ^ 2 <= q' * Rmax (2 * (1 - lam / (K + lam)) ^ it * q') (/ 10 ^ 6 * ((K + lam) / lam) ^ 2))%R.
Proof. exact (sdr_load_total b o it ref est m m' c d x y lam). Qed.
Print Assumptions C63_loaded_guarded.
Example C63_example b n : never_guarded ex_load ex_ref ex_est n /\
  is_ok (sdr_coh b (with_cg ex_load (Some n)) ex_ref ex_est) /\
  is_ok (sdr_coh b (with_cg ex_load None) ex_ref ex_est) /\
  has_chan ex_ref 0 (exr 0) /\ has_chan ex_est 1 (exe 1) /\ load_diag ex_load = Some 1%R.
Proof. exact (ex_load_rate b n). Qed.
Example C63_bounds_example b : n_fft (a_len ex_ref) (a_len ex_est) = 16 /\
  preconditioned_between b (sdr_acf ex_load 16 (unit_of (pre false (exr 0)))) (/ 3) 3.
Proof. exact (conj ex_nf (ex_load_between b)). Qed.
