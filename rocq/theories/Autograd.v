(** * The backward pass of the torch losses

    Model of what torch.autograd computes for the gradient of a weighted sum of the entries of
    pairwise_sdr_loss (torch/metrics.py:181-280, 305-362) with respect to the estimates, with the
    direct solver.  torch records the operations of the forward pass and applies to each the rule of
    its derivatives.yaml, in reverse order; the rules below are those of torch >= 1.8, written for one
    channel of the estimate.  sdr_loss and sdr_pit_loss (torch/metrics.py:283-302) are the cases where
    the weights select entries.  The cotangent is a real number; the numbers that may become
    infinite or NaN are extended reals. *)
From Coq Require Import Reals.
From Coquelicot Require Import Complex.
From Verif Require Import Prelude ExtReal Slice Sums Fft Helpers Linalg Cgd Metrics.
Local Open Scope nat_scope.

(** _coherence_to_neg_sdr, torch/helpers.py:47-63, at coherence [coh] with cotangent [g].
    10.0 * v: g -> 10 g.  log10(v): g -> g / (v * ln 10).  n / d: g -> g / d for n and
    g -> - g * ((n / d) / d) for d.  1 - c: g -> - g.  clamp: g where min <= x <= max, else 0. *)
Definition neg_sdr_bw (clamp_db : option R) (coh g : R) : xr :=
  let eps := match clamp_db with Some d => db_clamp_eps d | None => 0%R end in
  let c := clamp (Fin coh) (Some eps) (Some (1 - eps)%R) in
  let num := xsub (Fin 1) c in
  let ratio := xdiv num c in
  let g_ratio := xdiv (Fin (10 * g)) (xmul ratio (Fin (ln 10))) in
  let g_num := xdiv g_ratio c in
  let g_den := xmul (xneg g_ratio) (xdiv (xdiv num c) c) in
  if xleb (Fin eps) (Fin coh) && xleb (Fin coh) (Fin (1 - eps))
  then xadd (xneg g_num) g_den else Fin 0.

(** irfft(Z, n=n), torch/metrics.py:124: the one-sided transform of the gradient over n, with the
    frequencies 1 .. n - (n/2 + 1) doubled. *)
Definition irfft_bw (n : nat) (g : list R) : list C :=
  let G := rfft n g in
  tab (length G) (fun k =>
    let z := Cmult (RtoC (/ INR n)%R) (nth k G (RtoC 0)) in
    if (1 <=? k) && (k <? 1 + (n - length G)) then Cmult (RtoC 2) z else z).
(** rfft(y, n=n) of a signal of [len] samples, torch/metrics.py:112: the one-sided gradient is
    padded with zeros, transformed (inverse, not scaled), and its real part cut to the signal. *)
Definition rfft_bw (n len : nat) (G : list C) : list R :=
  tab len (fun t =>
    if t <? n then fst (Csum n (fun k => Cmult (nth k G (RtoC 0)) (cis (ang n (k * t))))) else 0%R).
(** xcorr with respect to y, torch/metrics.py:109-124: XY = X.conj() * Y gives gY = gXY * X.  The slice
    [:length] pads the gradient with zeros. *)
Definition xcorr_bw (nf len : nat) (x g : list R) : list R :=
  rfft_bw nf len (zip_with Cmult (irfft_bw nf g) (rfft nf x)).

(** _normalize, torch/helpers.py:34-38.  norm: g -> y * (g / norm), 0 where the norm is 0. *)
Definition normalize_bw (y g : list R) : list R :=
  let n := sqrt (Rsum (length y) (fun t => nth t y 0 * nth t y 0))%R in
  let c := Rmax n norm_eps in
  let g_c := Rsum (length y) (fun t => - nth t g 0 * (nth t y 0 / c / c))%R in
  let g_n := if Rle_dec norm_eps n then g_c else 0%R in
  tab (length y) (fun t =>
    (nth t g 0 / c + if Req_EM_T n 0 then 0 else nth t y 0 * (g_n / n))%R).
(** _remove_mean, torch/helpers.py:30-31 *)
Definition remove_mean_bw (g : list R) : list R :=
  tab (length g) (fun t => (nth t g 0 + - Rsum (length g) (fun s => nth s g 0) / INR (length g))%R).

(** Gradient with respect to the normalised estimate y of g times the coherence with the normalised
    reference x; filter_length = 1 (torch/metrics.py:54-61: einsum, then ** 2). *)
Definition coh1_bw (n : nat) (x y : list R) (g : R) : list R :=
  let g_ip := (g * (2 * ip n x y))%R in
  if Nat.eqb (length y) 1 then [Rsum n (fun t => g_ip * bc_get x t)%R]
  else tab (length y) (fun t => g_ip * bc_get x t)%R.
(** The same for longer filters (torch/metrics.py:246-275).  coh = sum xcorr * sol, sol = solve(R, xcorr)
    with gradient solve(R^T, g). *)
Definition coh_bw (b : backend) (nf L len : nat) (ld : option R) (x y : list R) (sol : nat -> R) (g : R)
  : res (list R) :=
  let acf := add_load ld (stats_acf nf L x) in
  let n := length acf in
  let xc := stats_xcorr nf L x y in
  do g_rhs <- solve_vec n (fun i j => ent (toeplitz b acf) j i) (fun l => g * nth l xc 0)%R;
  Ok (xcorr_bw nf len x (tab n (fun l => g * sol l + g_rhs l)%R)).

(** One reference: gradient of w times its loss with respect to the normalised estimate; [None] when
    the gradient is NaN. *)
Definition entry_bw (b : backend) (o : opts) (lx ly : nat) (x y : list R) (w : R) : res chan :=
  if Nat.eqb (filter_length o) 1 then
    do n <- bc_len b lx ly;
    Ok (match neg_sdr_bw (clamp_db o) (ip n x y ^ 2) w with
        | Fin g => Some (coh1_bw n x y g)
        | _ => None
        end)
  else
    let nf := n_fft lx ly in
    let L := filter_length o in
    let acf := add_load (load_diag o) (stats_acf nf L x) in
    let n := length acf in
    let xc := stats_xcorr nf L x y in
    do sol <- solve_vec n (ent (toeplitz b acf)) (fun l => nth l xc 0%R);
    match neg_sdr_bw (clamp_db o) (dot_nth n xc sol) w with
    | Fin g => do v <- coh_bw b nf L ly (load_diag o) x y sol g; Ok (Some v)
    | _ => Ok None
    end.

(** The gradient of sum_c w c * loss[c, d] with respect to channel d of the estimate. *)
Definition est_grad (b : backend) (o : opts) (ref : arr) (len : nat) (y : list xr) (w : nat -> R) : res (list xr) :=
  let refs := prep_arr (zero_mean o) ref in
  match fin_list y, prep (zero_mean o) y with
  | Some raw, Some v =>
    do gs <- mapM (fun c => match nth c refs None with
                            | None => Ok None
                            | Some x => entry_bw b o (a_len ref) len x v (w c)
                            end) (seq 0 (length refs));
    if existsb tainted gs then Ok (repeat NaN len)
    else
      let g := tab len (fun t => Rsum (length refs) (fun c => nth t (opt0 (nth c gs None)) 0%R)) in
      let y1 := if zero_mean o then map to_R (remove_mean y) else raw in
      let g1 := normalize_bw y1 g in
      Ok (map Fin (if zero_mean o then remove_mean_bw g1 else g1))
  | _, _ => Ok (repeat NaN len)
  end.
