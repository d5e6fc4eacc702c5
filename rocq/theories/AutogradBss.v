(** * The backward pass of bss_eval_sources of torch

    What torch.autograd computes for the gradient of a weighted sum of the returned SDR, SIR and SAR with
    respect to the estimates, for one batch item and the direct solver.  The conventions are those of
    [Autograd.v].  An output that the sum does not use at all has the cotangent [None]: nothing is computed
    behind it, which is not the same as the cotangent 0 where a factor is infinite. *)
From Coq Require Import Reals.
From Verif Require Import Prelude ExtReal Sums Fft Helpers Linalg Cgd Metrics Autograd AutogradPit.
Local Open Scope nat_scope.

(** _base_metrics_bss_eval, torch/metrics.py:574-587, at the coherences [s] (SDR) and [a] (SAR): cotangents of
    s and a when neg_sdr, neg_sir and neg_sar have the cotangents ws, wi, wa.  coh_sir = s / a gives g / a for
    s and - g * ((s / a) / a) for a.  The backward pass of clamp selects with a comparison, which is false
    at a coh_sir that is NaN or infinite. *)
Definition acc (x y : option xr) : xr :=
  match x, y with Some a, Some b => xadd a b | Some a, None => a | None, Some b => b | None, None => Fin 0 end.
Definition base_bw (cd : option R) (s a : R) (ws wi wa : option R) : xr * xr :=
  let sir := xdiv (Fin s) (Fin a) in
  let g_sir := option_map (fun w => match sir with Fin r => neg_sdr_bw cd r w | _ => Fin 0 end) wi in
  (acc (option_map (neg_sdr_bw cd s) ws) (option_map (fun g => xdiv g (Fin a)) g_sir),
   acc (option_map (neg_sdr_bw cd a) wa) (option_map (fun g => xmul (xneg g) (xdiv sir (Fin a))) g_sir)).

Definition cot (w : option (nat -> R)) (c : nat) : option R := option_map (fun f => f c) w.

(** The cotangents of the coherences of one estimate: coh_sdr of the compared references, coh_sar.  coh_sar is
    broadcast over the references (torch/metrics.py:68, 569), so its cotangents are added.  [None]: one is
    not a finite number. *)
Definition bss_cots (cd : option R) (k : nat) (cmp : nat -> bool) (s : nat -> R) (a : R) (ws wi wa : option (nat -> R))
  : option ((nat -> R) * R) :=
  let g := fun c => base_bw cd (s c) a (cot ws c) (cot wi c) (cot wa c) in
  if forallb (fun c => is_fin (fst (g c)) && is_fin (snd (g c))) (filter cmp (seq 0 k))
  then Some (fun c => if cmp c then to_R (fst (g c)) else 0%R,
             Rsum k (fun c => if cmp c then to_R (snd (g c)) else 0%R))
  else None.

(** sum_l r_l sol_l with sol = solve(A, r), torch/metrics.py:64-65, 537-551, 554-566: cotangent of r for the
    cotangent g; the gradient of solve is solve(A^T, .). *)
Definition quad_bw (n : nat) (A : nat -> nat -> R) (r s : nat -> R) (g : R) : res (nat -> R) :=
  do t <- solve_vec n (fun i j => A j i) (fun l => g * r l)%R;
  Ok (fun l => g * s l + t l)%R.

(** Gradient with respect to the normalised estimate y; the references x 0, ..., x (k-1) are normalised.
    [cmp c]: reference c is compared to this estimate (all of them when pairwise).
    filter_length = 1: torch/metrics.py:32-73. *)
Definition bss1_bw (cd : option R) (n lx : nat) (ld : option R) (k : nat) (x : nat -> list R) (y : list R)
    (cmp : nat -> bool) (ws wi wa : option (nat -> R)) : res chan :=
  let xc := fun c => ip n (x c) y in
  let acm := fun c d => (ip lx (x c) (x d) +
    match ld with Some l => if Nat.eqb c d then l else 0 | None => 0 end)%R in
  do sol <- solve_vec k acm xc;
  match bss_cots cd k cmp (fun c => xc c ^ 2)%R (Rsum k (fun c => xc c * sol c)%R) ws wi wa with
  | None => Ok None
  | Some (gs, ga) =>
    do ta <- quad_bw k acm xc sol ga;
    let g_xc := fun c => (gs c * (2 * xc c) + ta c)%R in
    let g_y := fun t => Rsum k (fun c => g_xc c * bc_get (x c) t)%R in
    Ok (Some (if Nat.eqb (length y) 1 then [Rsum n g_y] else tab (length y) g_y))
  end.

(** filter_length > 1: torch/metrics.py:516-571.  xcorr is used twice, for the SDR and (lag-major) for the SAR.
    The gradient is summed over the references after the transform instead of before. *)
Definition bssL_bw (cd : option R) (nf L len : nat) (ld : option R) (k : nat) (x : nat -> list R) (y : list R)
    (cmp : nat -> bool) (ws wi wa : option (nat -> R)) : res chan :=
  let xc := fun c => stats_xcorr nf L (x c) y in
  let R_sdr := fun c => ent (toeplitz Torch (acf_sdr nf L ld (x c))) in
  let acf := fun c d => (if Nat.eqb c d then add_load ld else fun l => l) (stats2_acf nf L (x c) (x d)) in
  let top := length (acf 0 0) in
  let n := top / 2 * k in
  let xcf := fun l => nth l (flatten k (length (xc 0)) xc) 0%R in
  do _ <- check_sizes Torch None nf L;
  do sols <- mapM (fun c => if cmp c then solve_vec L (R_sdr c) (fun l => nth l (xc c) 0%R) else Ok (fun _ => 0%R)) (seq 0 k);
  let s := fun c => nth c sols (fun _ => 0%R) in
  do M <- block_toeplitz Torch top k k acf;
  do sol <- solve_vec n M xcf;
  match bss_cots cd k cmp (fun c => dot_nth L (xc c) (s c)) (Rsum n (fun l => xcf l * sol l)%R) ws wi wa with
  | None => Ok None
  | Some (gs, ga) =>
    do ts <- mapM (fun c => if cmp c then quad_bw L (R_sdr c) (fun l => nth l (xc c) 0%R) (s c) (gs c) else Ok (fun _ => 0%R)) (seq 0 k);
    do ta <- quad_bw n M xcf sol ga;
    let g_xc := fun c => tab L (fun l => nth c ts (fun _ => 0%R) l + ta (l * k + c)%nat)%R in
    Ok (Some (tab len (fun t => Rsum k (fun c => nth t (xcorr_bw nf len (x c) (g_xc c)) 0%R))))
  end.

(** One channel y of the estimate.  A reference that is not finite makes the matrix of the SAR NaN.
    Simplified: the code is finite when the SAR and the SIR are not used and that reference is not compared. *)
Definition bss_chan_grad (o : opts) (ref : arr) (len : nat) (y : list xr) (cmp : nat -> bool) (ws wi wa : option (nat -> R))
  : res (list xr) :=
  let refs := prep_arr (zero_mean o) ref in
  if existsb tainted refs then Ok (repeat NaN len)
  else match fin_list y, prep (zero_mean o) y with
  | Some raw, Some v =>
    let x := fun c => opt0 (nth c refs None) in
    do g <- (if Nat.eqb (filter_length o) 1 then
        do n <- bc_len Torch (a_len ref) len;
        bss1_bw (clamp_db o) n (a_len ref) (load_diag o) (length refs) x v cmp ws wi wa
      else bssL_bw (clamp_db o) (n_fft (a_len ref) len) (filter_length o) len (load_diag o) (length refs) x v cmp ws wi wa);
    match g with
    | None => Ok (repeat NaN len)
    | Some g =>
      let y1 := if zero_mean o then map to_R (remove_mean y) else raw in
      let g1 := normalize_bw y1 g in
      Ok (map Fin (if zero_mean o then remove_mean_bw g1 else g1))
    end
  | _, _ => Ok (repeat NaN len)
  end.

(** bss_eval_sources, torch/metrics.py:590-674, compute_permutation = True: the outputs are - neg_sdr, - neg_sir,
    - neg_sar at the pairs of the permutation, with cotangents vs, vi, va.  One list for each channel of
    the estimate. *)
Definition bss_grad (sp : scipy_lsa) (o : opts) (ref est : arr) (vs vi va : option (nat -> R)) : res (list (list xr)) :=
  do c <- sq_cos Torch o ref est;
  let '(nsdr, nsir, nsar) := bss_mats o c in
  do r <- solve_permutation Torch sp (n_chan ref) (n_chan est) nsir [nsdr; nsar];
  let '(_, _, perm) := r in
  let w := fun v d => option_map (fun v => fun c => perm_bw (n_chan ref) (n_chan est) perm (fun i => - v i)%R c d) v in
  mapM (fun d => bss_chan_grad o ref (a_len est) (nth d (a_chans est) []) (fun _ => true)
                   (w vs d) (w vi d) (w va d)) (seq 0 (n_chan est)).
(** compute_permutation = False: estimate d is compared to reference d; the SAR uses all references. *)
Definition bss_noperm_grad (o : opts) (ref est : arr) (vs vi va : option (nat -> R)) : res (list (list xr)) :=
  do _ <- bss_eval_sources_noperm Torch o ref est;
  let w := fun v d => option_map (fun v : nat -> R => fun _ : nat => - v d)%R v in
  mapM (fun d => bss_chan_grad o ref (a_len est) (nth d (a_chans est) []) (Nat.eqb d)
                   (w vs d) (w vi d) (w va d)) (seq 0 (n_chan est)).
