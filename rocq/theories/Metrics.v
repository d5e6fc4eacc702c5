(** * Model of fast_bss_eval/numpy/metrics.py and torch/metrics.py

    One batch item: a 2-D array (n_channels, n_samples).  The numbers are extended
    reals ([ExtReal.v]); an array that contains a non-finite sample poisons every
    number computed from it ([chan] below). *)
From Coq Require Import Reals.
From Coquelicot Require Import Complex.
From Verif Require Import Prelude ExtReal Slice Sums Fft Helpers Linalg Cgd.
Local Open Scope nat_scope.

(** An array of shape (n_chan, n_samples). *)
Record arr := Arr { a_len : nat; a_chans : list (list xr) }.
Definition wf (a : arr) : Prop :=
  0 < a_len a /\ Forall (fun c => length c = a_len a) (a_chans a).
Definition n_chan (a : arr) : nat := length (a_chans a).

(** A channel after preprocessing: real samples, or [None] when some sample is not
    finite (then all correlations with this channel are NaN: every output of the
    FFT, inner product or linear solver depends on that sample). *)
Definition chan := option (list R).

Fixpoint fin_list (l : list xr) : chan :=
  match l with
  | [] => Some []
  | Fin r :: t => match fin_list t with Some t' => Some (r :: t') | None => None end
  | _ :: _ => None
  end.

(** The preprocessing common to all functions: _remove_mean (if zero_mean), then
    _normalize; numpy/metrics.py:49-54, 242-248, 509-515. *)
Definition prep (zero_mean : bool) (x : list xr) : chan :=
  fin_list (normalize (if zero_mean then remove_mean x else x)).
Definition prep_arr (zero_mean : bool) (a : arr) : list chan := map (prep zero_mean) (a_chans a).

(** ** Statistics *)

(** n_fft, numpy/metrics.py:116-117, 166-167 (n_samples >= 1 assumed, math.log2 exact). *)
Definition n_fft (lx ly : nat) : nat := 2 ^ Nat.log2_up (lx + Nat.max lx ly - 1).

Definition cut (L : nat) (l : list R) : list R := pyslice None (Some (Z.of_nat L)) 1 l.

(** Models compute_stats, numpy/metrics.py:81-134, torch/metrics.py:76-130, for one
    channel of x (auto-correlation) and one pair (cross-correlation). *)
Definition stats_acf (nf L : nat) (x : list R) : list R :=
  cut L (irfft nf (map (fun z => RtoC (fst z ^ 2 + snd z ^ 2)) (rfft nf x))).
Definition stats_xcorr (nf L : nat) (x y : list R) : list R :=
  cut L (irfft nf (zip_with (fun a b => Cmult (Cconj a) b) (rfft nf x) (rfft nf y))).

(** Models the acf of compute_stats_2, numpy/metrics.py:137-182, torch/metrics.py:133-178, for
    one pair (c, d) of channels of x: the first L and the last L lags.  The
    cross-correlation is the same as in compute_stats. *)
Definition stats2_acf (nf L : nat) (x1 x2 : list R) : list R :=
  let a := irfft nf (zip_with (fun a b => Cmult a (Cconj b)) (rfft nf x1) (rfft nf x2)) in
  cut L a ++ pyslice (Some (- Z.of_nat L)%Z) None 1 a.

(** acf[..., 0] += load_diag *)
Definition add_load (ld : option R) (l : list R) : list R :=
  match ld, l with Some d, a :: r => (a + d)%R :: r | _, _ => l end.

(** sum_l xcorr[l] * sol[l] *)
Definition dot_nth (n : nat) (u : list R) (v : nat -> R) : R := Rsum n (fun l => nth l u 0 * v l)%R.

(** ** filter_length = 1 *)

(** Broadcasting of the time axis in einsum (a length of 1 is repeated). *)
Definition bc_len (b : backend) (lx ly : nat) : res nat :=
  if Nat.eqb lx ly then Ok lx
  else if Nat.eqb lx 1 then Ok ly
  else if Nat.eqb ly 1 then Ok lx
  else Raise (shape_exn b).
Definition bc_get (x : list R) (t : nat) : R :=
  if Nat.eqb (length x) 1 then nth 0 x 0%R else nth t x 0%R.
Definition ip (n : nat) (x y : list R) : R := Rsum n (fun t => bc_get x t * bc_get y t)%R.

Definition lift2 (f : list R -> list R -> R) (x y : chan) : xr :=
  match x, y with Some a, Some b => Fin (f a b) | _, _ => NaN end.

Definition opt0 (x : chan) : list R := match x with Some l => l | None => [] end.
Definition tainted (x : chan) : bool := match x with None => true | _ => false end.

(** coh_sdr of square_cosine_metrics_length_one_filter, numpy/metrics.py:37-78,
    torch/metrics.py:32-73, pairwise. *)
Definition len1_sdr (n : nat) (refs ests : list chan) : list (list xr) :=
  map (fun x => map (fun y => lift2 (fun a b => ip n a b ^ 2)%R x y) ests) refs.

(** coh_sar of the same function.  A NaN in the system matrix makes every solution NaN. *)
Definition len1_sar (n lx : nat) (ld : option R) (refs ests : list chan) : res (list xr) :=
  if existsb tainted refs then Ok (map (fun _ => NaN) ests)
  else
    let k := length refs in
    let rf := fun c => opt0 (nth c refs None) in
    let es := fun d => opt0 (nth d ests None) in
    let acm := fun c d => (ip lx (rf c) (rf d) +
      match ld with Some l => if Nat.eqb c d then l else 0 | None => 0 end)%R in
    let xc := fun c d => ip n (rf c) (es d) in
    do X <- solve_cols k (length ests) acm xc;
    Ok (tab (length ests) (fun d =>
      if tainted (nth d ests None) then NaN else Fin (Rsum k (fun c => xc c d * X c d)%R))).

(** ** sdr_loss *)

Record opts := Opts {
  filter_length : nat;            (* >= 1 *)
  use_cg_iter : option nat;
  zero_mean : bool;
  clamp_db : option R;
  load_diag : option R
}.

(** One row of the coherence matrix, filter_length > 1: reference x (acf of length n)
    against all estimates; numpy/metrics.py:250-276.  [acf] is the loaded
    auto-correlation, [xc y] the cross-correlation with estimate y. *)
Definition coh_row (b : backend) (cg : option nat) (acf : list R) (xc : list R -> list R)
    (ests : list chan) : res (list xr) :=
  let n := length acf in
  match cg with
  | None =>
      (* R_mat = toeplitz(acf); sol = solve(R_mat, xcorr) *)
      do X <- solve_cols n (length ests) (ent (toeplitz b acf))
                (fun l d => nth l (xc (opt0 (nth d ests None))) 0%R);
      Ok (tab (length ests) (fun d =>
        match nth d ests None with
        | None => NaN
        | Some y => Fin (dot_nth n (xc y) (fun l => X l d))
        end))
  | Some k =>
      mapM (fun y : chan => match y with
        | None => Ok NaN
        | Some v => do s <- toeplitz_cg b acf (xc v) k;
                    Ok (Fin (dot_nth n (xc v) (fun l => nth l s 0%R)))
        end) ests
  end.

(** Models sdr_loss(pairwise=True), numpy/metrics.py:185-284, torch/metrics.py:181-280: the
    coherences; rows = references, columns = estimates. *)
Definition sdr_coh (b : backend) (o : opts) (ref est : arr) : res (list (list xr)) :=
  let refs := prep_arr (zero_mean o) ref in
  let ests := prep_arr (zero_mean o) est in
  if Nat.eqb (filter_length o) 1 then
    do n <- bc_len b (a_len ref) (a_len est);
    Ok (len1_sdr n refs ests)
  else
    let nf := n_fft (a_len ref) (a_len est) in
    let L := filter_length o in
    mapM (fun x : chan => match x with
      | None => Ok (map (fun _ => NaN) ests)
      | Some v => coh_row b (use_cg_iter o) (add_load (load_diag o) (stats_acf nf L v))
                          (stats_xcorr nf L v) ests
      end) refs.

Definition to_db (o : opts) (m : list (list xr)) : list (list xr) :=
  map (map (coherence_to_neg_sdr (clamp_db o))) m.

(** pairwise_sdr_loss, numpy/metrics.py:309-366. *)
Definition pairwise_sdr_loss (b : backend) (o : opts) (est ref : arr) : res (list (list xr)) :=
  do m <- sdr_coh b o ref est; Ok (to_db o m).

(** Models sdr_loss(pairwise=False).  The channel axes are broadcast: equal counts, or
    one of them 1; otherwise the product X.conj() * Y (or the einsum) raises.
    numpy < 2 (the vector right-hand side of solve is recognised by ndim); in torch,
    with the direct solver, one reference and several estimates raise as xcorr is
    then taken for a matrix (exception, not modelled: n_est = filter_length). *)
Definition bc_chan (b : backend) (o : opts) (nr ne : nat) : res nat :=
  if Nat.eqb nr ne then Ok nr
  else if Nat.eqb ne 1 then Ok nr
  else if Nat.eqb nr 1 then
    match b, use_cg_iter o with
    | Torch, None => if Nat.eqb (filter_length o) 1 then Ok ne else Raise RuntimeError
    | _, _ => Ok ne
    end
  else Raise (shape_exn b).
Definition bc_pick {A} (l : list A) (i : nat) (d : A) : A :=
  if Nat.eqb (length l) 1 then nth 0 l d else nth i l d.
Definition sdr_coh_diag (b : backend) (o : opts) (ref est : arr) : res (list xr) :=
  let refs := prep_arr (zero_mean o) ref in
  let ests := prep_arr (zero_mean o) est in
  if Nat.eqb (filter_length o) 1 then
    do n <- bc_len b (a_len ref) (a_len est);
    do k <- bc_chan b o (length refs) (length ests);
    Ok (tab k (fun i => lift2 (fun a b => ip n a b ^ 2)%R (bc_pick refs i None) (bc_pick ests i None)))
  else
    let nf := n_fft (a_len ref) (a_len est) in
    let L := filter_length o in
    do k <- bc_chan b o (length refs) (length ests);
    mapM (fun i =>
      match bc_pick refs i None with
      | None => Ok NaN
      | Some v =>
        do row <- coh_row b (use_cg_iter o) (add_load (load_diag o) (stats_acf nf L v))
                          (stats_xcorr nf L v) [bc_pick ests i None];
        Ok (nth 0 row NaN)
      end) (seq 0 k).
Definition sdr_loss (b : backend) (o : opts) (est ref : arr) : res (list xr) :=
  do m <- sdr_coh_diag b o ref est; Ok (map (coherence_to_neg_sdr (clamp_db o)) m).

(** ** sdr *)
Definition mat_of (m : list (list xr)) (i j : nat) : xr := nth j (nth i m []) NaN.

(** Models sdr, numpy/metrics.py:369-447, torch/metrics.py:365-443: (values, perm). *)
Definition sdr (b : backend) (sp : scipy_lsa) (o : opts) (change_sign : bool) (ref est : arr)
  : res (list xr * list nat) :=
  do neg <- pairwise_sdr_loss b o est ref;
  do r <- solve_permutation b sp (n_chan ref) (n_chan est) (mat_of neg) [];
  let '(v, _, perm) := r in
  Ok (if change_sign then v else map xneg v, perm).

(** Models sdr_pit_loss, numpy/metrics.py:287-306, torch/metrics.py:283-302. *)
Definition sdr_pit_loss (b : backend) (sp : scipy_lsa) (o : opts) (est ref : arr)
  : res (list xr) :=
  do r <- sdr b sp o true ref est; Ok (fst r).

(** ** square_cosine_metrics, bss_eval_sources *)

(** The SAR coherences, filter_length > 1; numpy/metrics.py:557-569.  xcorr reshaped
    lag-major; starting point of the iterative solver from the SDR solutions. *)
Definition sar_row (b : backend) (cg : option nat) (nf L : nat) (ld : option R)
    (pairwise : bool) (refs ests : list chan) : res (list xr) :=
  if existsb tainted refs then Ok (map (fun _ => NaN) ests)
  else
    let k := length refs in
    let rf := fun c => opt0 (nth c refs None) in
    let acf := fun c d =>
      (if Nat.eqb c d then add_load ld else fun l => l) (stats2_acf nf L (rf c) (rf d)) in
    let top := length (acf 0 0) in
    let xc := fun y => flatten k (length (stats_xcorr nf L (rf 0) y))
                               (fun c => stats_xcorr nf L (rf c) y) in
    match cg with
    | None =>
        do M <- block_toeplitz b top k k acf;
        let n := top / 2 * k in
        do X <- solve_cols n (length ests) M
                  (fun l d => nth l (xc (opt0 (nth d ests None))) 0%R);
        Ok (tab (length ests) (fun d =>
          match nth d ests None with
          | None => NaN
          | Some y => Fin (dot_nth n (xc y) (fun l => X l d))
          end))
    | Some it =>
        (* the preconditioner is built once, for any number of right-hand sides *)
        do _ <- block_precond b k acf;
        mapM (fun y : chan => match y with
          | None => Ok NaN
          | Some v =>
              do x0 <- (if pairwise then
                  do cols <- mapM (fun c => toeplitz_cg b (add_load ld (stats_acf nf L (rf c)))
                                              (stats_xcorr nf L (rf c) v) it) (seq 0 k);
                  Ok (Some (flatten k (top / 2) (fun c => nth c cols [])))
                else Ok None);
              do s <- block_toeplitz_cg b top k acf (xc v) x0 it;
              Ok (Fin (dot_nth (top / 2 * k) (xc v) (fun l => nth l s 0%R)))
          end) ests
    end.

(** acf_sdr of square_cosine_metrics, numpy/metrics.py:532-534: the diagonal of the
    block acf, cut again to filter_length. *)
Definition acf_sdr (nf L : nat) (ld : option R) (x : list R) : list R :=
  cut L (add_load ld (stats2_acf nf L x x)).

(** The sizes of acf_sdr and of xcorr (same for all channels) must agree in solve
    (shape error), resp. in the assertion of conjugate_gradient. *)
Definition check_sizes (b : backend) (cg : option nat) (nf L : nat) : res unit :=
  let n_acf := Nat.min L (2 * Nat.min L nf) in
  let n_xc := Nat.min L nf in
  if Nat.eqb n_acf n_xc then Ok tt
  else Raise (match cg with None => shape_exn b | Some _ => AssertionError end).

(** Models square_cosine_metrics, numpy/metrics.py:450-574, torch/metrics.py:446-571,
    pairwise = True: SDR coherences (rows = references) and SAR coherences. *)
Definition sq_cos (b : backend) (o : opts) (ref est : arr) : res (list (list xr) * list xr) :=
  let refs := prep_arr (zero_mean o) ref in
  let ests := prep_arr (zero_mean o) est in
  if Nat.eqb (filter_length o) 1 then
    do n <- bc_len b (a_len ref) (a_len est);
    do sar <- len1_sar n (a_len ref) (load_diag o) refs ests;
    Ok (len1_sdr n refs ests, sar)
  else
    let nf := n_fft (a_len ref) (a_len est) in
    let L := filter_length o in
    do _ <- check_sizes b (use_cg_iter o) nf L;
    do sdrm <- mapM (fun x : chan => match x with
      | None => Ok (map (fun _ => NaN) ests)
      | Some v => coh_row b (use_cg_iter o) (acf_sdr nf L (load_diag o) v)
                          (stats_xcorr nf L v) ests
      end) refs;
    do sar <- sar_row b (use_cg_iter o) nf L (load_diag o) true refs ests;
    Ok (sdrm, sar).

(** pairwise = False (equal channel counts, checked by the caller). *)
Definition sq_cos_diag (b : backend) (o : opts) (ref est : arr) : res (list xr * list xr) :=
  let refs := prep_arr (zero_mean o) ref in
  let ests := prep_arr (zero_mean o) est in
  if Nat.eqb (filter_length o) 1 then
    do n <- bc_len b (a_len ref) (a_len est);
    do sar <- len1_sar n (a_len ref) (load_diag o) refs ests;
    Ok (tab (length refs) (fun i =>
          lift2 (fun a b => ip n a b ^ 2)%R (nth i refs None) (nth i ests None)), sar)
  else
    let nf := n_fft (a_len ref) (a_len est) in
    let L := filter_length o in
    do _ <- check_sizes b (use_cg_iter o) nf L;
    do sdrv <- mapM (fun i =>
      match nth i refs None with
      | None => Ok NaN
      | Some v =>
        do row <- coh_row b (use_cg_iter o) (acf_sdr nf L (load_diag o) v)
                          (stats_xcorr nf L v) [nth i ests None];
        Ok (nth 0 row NaN)
      end) (seq 0 (length refs));
    do sar <- sar_row b (use_cg_iter o) nf L (load_diag o) false refs ests;
    Ok (sdrv, sar).

(** Models _base_metrics_bss_eval, numpy/metrics.py:577-590, torch/metrics.py:574-587, on one
    entry: (neg_sdr, neg_sir, neg_sar). *)
Definition base_metrics (o : opts) (coh_sdr coh_sar : xr) : xr * xr * xr :=
  let f := coherence_to_neg_sdr (clamp_db o) in
  (f coh_sdr, f (xdiv coh_sdr coh_sar), f coh_sar).

(** Models bss_eval_sources(compute_permutation=True), numpy/metrics.py:593-677,
    torch/metrics.py:590-674: (sdr, sir, sar, perm). *)
Definition bss_mats (o : opts) (c : list (list xr) * list xr) : (nat -> nat -> xr) * (nat -> nat -> xr) * (nat -> nat -> xr) :=
  let '(sdrm, sar) := c in
  let at_ := fun i j => base_metrics o (mat_of sdrm i j) (nth j sar NaN) in
  (fun i j => fst (fst (at_ i j)), fun i j => snd (fst (at_ i j)), fun i j => snd (at_ i j)).
Definition bss_eval_sources (b : backend) (sp : scipy_lsa) (o : opts) (ref est : arr)
  : res (list xr * list xr * list xr * list nat) :=
  do c <- sq_cos b o ref est;
  let '(nsdr, nsir, nsar) := bss_mats o c in
  do r <- solve_permutation b sp (n_chan ref) (n_chan est) nsir [nsdr; nsar];
  let '(sir, args, perm) := r in
  Ok (map xneg (nth 0 args []), map xneg sir, map xneg (nth 1 args []), perm).

(** bss_eval_sources(compute_permutation=False): asserts equal channel counts. *)
Definition bss_eval_sources_noperm (b : backend) (o : opts) (ref est : arr)
  : res (list xr * list xr * list xr) :=
  if Nat.eqb (n_chan ref) (n_chan est) then
    do c <- sq_cos_diag b o ref est;
    let '(sdrv, sar) := c in
    let m := tab (n_chan ref) (fun i => base_metrics o (nth i sdrv NaN) (nth i sar NaN)) in
    Ok (map (fun t => xneg (fst (fst t))) m, map (fun t => xneg (snd (fst t))) m,
        map (fun t => xneg (snd t)) m)
  else Raise AssertionError.
