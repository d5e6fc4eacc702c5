(** * The backward pass of the torch losses with respect to the references

    Model of the gradient that torch.autograd computes for a weighted sum of the entries of
    pairwise_sdr_loss (torch/metrics.py:181-280, 305-362) with respect to one channel of the references,
    with the direct solver.  The conventions are those of [Autograd.v]. *)
From Coq Require Import Reals.
From Coquelicot Require Import Complex.
From Verif Require Import Prelude ExtReal Slice Sums Fft Helpers Linalg Cgd Metrics Autograd.
Local Open Scope nat_scope.

(** hankel_view, torch/linalg.py:24-30: as_strided adds the gradients of the entries that share an
    element of x; [n] rows and [n] columns. *)
Definition hankel_bw (n : nat) (g : nat -> nat -> R) : list R :=
  tab (2 * n - 1) (fun p => Rsum n (fun i => if (i <=? p) && (p - i <? n) then g i (p - i) else 0%R)).
(** toeplitz, torch/linalg.py:33-40: flip the rows; hankel_view; then cat: the part after [n - 1] goes to x,
    the part before, reversed, to x[1:]. *)
Definition toeplitz_bw (n : nat) (g : nat -> nat -> R) : list R :=
  let two := hankel_bw n (fun i j => g (n - 1 - i) j) in
  tab n (fun l => (nth (n - 1 + l) two 0 + if Nat.eqb l 0 then 0 else nth (n - 1 - l) two 0)%R).

(** Gradient with respect to the normalised reference x of sum_d g d * coh d, where coh d is the
    coherence with the normalised estimate ys d; torch/metrics.py:111-130, 255-275, backwards.
    coh = einsum(xcorr, sol).  sol = solve(R, xcorr): B = solve(R^T, g_sol) for xcorr, - B sol^T for R.
    acf[..., 0] += load_diag: unchanged.  The slices [:length] pad with zeros.
    X_mag = X.real ** 2 + X.imag ** 2: 2 g X.  XY = einsum(X.conj(), Y): conj(g) Y for X. *)
Definition coh_ref_bw (b : backend) (nf L len : nat) (ld : option R) (x : list R) (k : nat) (ys : nat -> list R)
    (sol : nat -> nat -> R) (g : nat -> R) : res (list R) :=
  let acf := add_load ld (stats_acf nf L x) in
  let n := length acf in
  let xc := fun d => stats_xcorr nf L x (ys d) in
  do B <- solve_cols n k (fun i j => ent (toeplitz b acf) j i) (fun l d => g d * nth l (xc d) 0)%R;
  let g_acf := toeplitz_bw n (fun i j => - Rsum k (fun d => B i d * sol j d))%R in
  let g_mag := irfft_bw nf g_acf in
  let g_XY := fun d => irfft_bw nf (tab n (fun l => g d * sol l d + B l d)%R) in
  let X := rfft nf x in
  let g_X := tab (length X) (fun f =>
    Cplus (Cmult (RtoC (2 * fst (nth f g_mag (RtoC 0)))) (nth f X (RtoC 0)))
          (Csum k (fun d => Cmult (Cconj (nth f (g_XY d) (RtoC 0))) (nth f (rfft nf (ys d)) (RtoC 0))))) in
  Ok (rfft_bw nf len g_X).

(** One reference, normalised, against all estimates: gradient of sum_d w d * loss[c, d]; [None] when
    it is NaN.  filter_length = 1: torch/metrics.py:54-61. *)
Definition row_bw (b : backend) (o : opts) (lx ly : nat) (x : list R) (ests : list chan) (w : nat -> R) : res chan :=
  let k := length ests in
  let ys := fun d => opt0 (nth d ests None) in
  if Nat.eqb (filter_length o) 1 then
    do n <- bc_len b lx ly;
    Ok (if existsb tainted ests then None
        else match fin_list (tab k (fun d => neg_sdr_bw (clamp_db o) (ip n x (ys d) ^ 2) (w d))) with
             | Some g => Some (tab lx (fun t => Rsum k (fun d => nth t (coh1_bw n (ys d) x (nth d g 0%R)) 0%R)))
             | None => None
             end)
  else
    let nf := n_fft lx ly in
    let L := filter_length o in
    let acf := add_load (load_diag o) (stats_acf nf L x) in
    let n := length acf in
    let xc := fun d => stats_xcorr nf L x (ys d) in
    do sol <- solve_cols n k (ent (toeplitz b acf)) (fun l d => nth l (xc d) 0%R);
    if existsb tainted ests then Ok None
    else match fin_list (tab k (fun d => neg_sdr_bw (clamp_db o) (dot_nth n (xc d) (fun l => sol l d)) (w d))) with
         | Some g => do v <- coh_ref_bw b nf L lx (load_diag o) x k ys sol (fun d => nth d g 0%R); Ok (Some v)
         | None => Ok None
         end.

(** The gradient of sum_d w d * loss[c, d] with respect to channel c, [x], of the reference; _normalize and
    _remove_mean, torch/helpers.py:30-38. *)
Definition ref_grad (b : backend) (o : opts) (est : arr) (len : nat) (x : list xr) (w : nat -> R) : res (list xr) :=
  match fin_list x, prep (zero_mean o) x with
  | Some raw, Some v =>
    do r <- row_bw b o len (a_len est) v (prep_arr (zero_mean o) est) w;
    Ok (match r with
        | None => repeat NaN len
        | Some g =>
          let x1 := if zero_mean o then map to_R (remove_mean x) else raw in
          let g1 := normalize_bw x1 g in
          map Fin (if zero_mean o then remove_mean_bw g1 else g1)
        end)
  | _, _ => Ok (repeat NaN len)
  end.
