(** * The backward pass of sdr, sdr_pit_loss and the non-pairwise sdr_loss of torch

    What torch.autograd computes for the gradient of a weighted sum of the outputs with respect to the
    estimates, for one batch item.  The conventions are those of [Autograd.v]. *)
From Coq Require Import Reals.
From Verif Require Import Prelude ExtReal Sums Helpers Metrics Autograd AutogradCg.
Local Open Scope nat_scope.

(** _solve_permutation, torch/helpers.py:67-104.  The indices are found without gradient (lines 120-143);
    loss_out[m] = loss_mat[m + (dum, p_opt)] copies the selected entries (transposed when there are more
    references), so entry (c, d) of the matrix gets the cotangent of the output it was copied to, else 0. *)
Definition perm_bw (n_ref n_est : nat) (perm : list nat) (v : nat -> R) (c d : nat) : R :=
  if Nat.ltb n_est n_ref
  then if Nat.eqb (nth d perm n_ref) c then v d else 0%R
  else if Nat.eqb (nth c perm n_est) d then v c else 0%R.

(** sdr, torch/metrics.py:365-443 and sdr_pit_loss, torch/metrics.py:283-302 (change_sign = true): one list for
    each channel of the estimate. *)
Definition sdr_grad (sp : scipy_lsa) (o : opts) (change_sign : bool) (ref est : arr) (v : nat -> R)
  : res (list (list xr)) :=
  do neg <- pairwise_sdr_loss Torch o est ref;
  do r <- solve_permutation Torch sp (n_chan ref) (n_chan est) (mat_of neg) [];
  let '(_, _, perm) := r in
  let g := perm_bw (n_chan ref) (n_chan est) perm (fun k => if change_sign then v k else (- v k)%R) in
  mapM (fun d => est_grad_cg o ref (a_len est) (nth d (a_chans est) []) (fun c => g c d)) (seq 0 (n_chan est)).
Definition sdr_pit_loss_grad sp o est ref v := sdr_grad sp o true ref est v.

(** sdr_loss with pairwise=False, torch/metrics.py:181-280: output i compares channel i of both arrays.  A
    single channel is broadcast: its gradient is the sum over all outputs. *)
Definition sdr_loss_grad (o : opts) (est ref : arr) (v : nat -> R) : res (list (list xr)) :=
  do out <- sdr_loss Torch o est ref;
  if Nat.eqb (n_chan est) 1
  then do g <- est_grad_cg o ref (a_len est) (nth 0 (a_chans est) []) v; Ok [g]
  else mapM (fun d => est_grad_cg o (Arr (a_len ref) [bc_pick (a_chans ref) d []]) (a_len est) (nth d (a_chans est) [])
                        (fun _ => v d)) (seq 0 (n_chan est)).
