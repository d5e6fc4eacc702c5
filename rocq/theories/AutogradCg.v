(** * The backward pass of the torch losses through the conjugate gradient

    Model of what torch.autograd computes for the gradient with respect to the estimates when
    use_cg_iter is given (torch/metrics.py:251-258): the operations of conjugate_gradient
    (torch/cgd.py:299-371) are differentiated one by one.  The references do not require a gradient, so
    the operators are constants.  The conventions are those of [Autograd.v]. *)
From Coq Require Import Reals.
From Coquelicot Require Import Complex.
From Verif Require Import Prelude ExtReal Slice Sums Fft Helpers Linalg Cgd Metrics Autograd.
Local Open Scope nat_scope.

(** irfft(C * rfft(v, n=nf), n=nf) of a vector of [len] entries: a * b gives gb = conj(a) g. *)
Definition filter_bw (nf len : nat) (Cf : list C) (g : list R) : list R :=
  rfft_bw nf len (zip_with Cmult (irfft_bw nf g) (map Cconj Cf)).
(** SymmetricToeplitzOperator, torch/cgd.py:127-165; the slice [: n_col] pads the gradient with zeros. *)
Definition toeplitz_op_bw (col : list R) : list R -> list R :=
  let n := length col in
  let circ_col := col ++ repeat 0%R (2 * n - 2 * n + 1) ++ flip (pyslice (Some 1%Z) None 1 col) in
  filter_bw (2 * n) n (rfft (length circ_col) circ_col).
(** CirculantPreconditionerOperator, torch/cgd.py:83-123. *)
Definition circulant_bw (col : list R) : res (list R -> list R) :=
  do c <- sym_precond_col Torch col;
  let n := length c in
  Ok (filter_bw n n (map (precond_freq Torch) (rfft n c))).

(** Cotangents of x, r, p and rsold. *)
Record cg_cot := Cot { g_x : list R; g_r : list R; g_p : list R; g_rs : R }.

Section Loop.
  (** the operators and their backward passes *)
  Variables (n : nat) (A Abw P Pbw : list R -> list R).

  (** One iteration, torch/cgd.py:343-360, backwards; [s] is the state before it, [g] the cotangents
      after it.  The condition [epoch + 1 % 5 == 0] is never true.  clamp(v, min=1e-6): g where
      v >= 1e-6, else 0.  n / d: g / d and - g * ((n / d) / d).  An einsum or product of two vectors gives
      each the gradient times the other. *)
  Definition cg_step_bw (s : cg_state) (g : cg_cot) : cg_cot :=
    let p := cg_p s in
    let Ap := A p in
    let pAp := dotl n p Ap in
    let c1 := Rmax pAp cg_eps in
    let alpha := (cg_rs s / c1)%R in
    let r := axpy n (cg_r s) (- alpha) Ap in
    let z := P r in
    let rsnew := dotl n r z in
    let c2 := Rmax (cg_rs s) cg_eps in
    let beta := (rsnew / c2)%R in
    (* p = z + beta * p *)
    let g_beta := dotl n (g_p g) p in
    (* beta = rsnew / c2, rsold = rsnew *)
    let g_rsnew := (g_rs g + g_beta / c2)%R in
    let g_c2 := (- g_beta * (beta / c2))%R in
    (* rsnew = <r, z>, z = P r *)
    let g_z := axpy n (g_p g) g_rsnew r in
    let gr := axpy n (axpy n (g_r g) g_rsnew z) 1 (Pbw g_z) in
    (* r = r - alpha * Ap, x = x + alpha * p *)
    let g_alpha := (dotl n (g_x g) p - dotl n gr Ap)%R in
    let g_c1 := (- g_alpha * (alpha / c1))%R in
    let g_pAp := if Rle_dec cg_eps pAp then g_c1 else 0%R in
    (* pAp = <p, Ap>, Ap = A p *)
    let g_Ap := axpy n (map (Rmult (- alpha)) gr) g_pAp p in
    Cot (g_x g) gr
        (tab n (fun i => beta * nth i (g_p g) 0 + alpha * nth i (g_x g) 0 + g_pAp * nth i Ap 0 + nth i (Abw g_Ap) 0)%R)
        ((if Rle_dec cg_eps (cg_rs s) then g_c2 else 0) + g_alpha / c1)%R.
  (** All iterations; [run k] is the state before iteration k. *)
  Fixpoint cg_loop_bw (run : nat -> cg_state) (k : nat) (g : cg_cot) : cg_cot :=
    match k with 0 => g | S k' => cg_loop_bw run k' (cg_step_bw (run k') g) end.
  (** r = b - A @ x, z = P r, p = z, rsold = <r, z>, torch/cgd.py:332-336: the gradient of b. *)
  Definition cg_init_bw (s : cg_state) (g : cg_cot) : list R :=
    let z := P (cg_r s) in
    axpy n (axpy n (g_r g) (g_rs g) z) 1 (Pbw (axpy n (g_p g) (g_rs g) (cg_r s))).
  (** The gradient with respect to the right-hand side b, for the gradient [gx] of the result. *)
  Definition cg_bw (b : list R) (n_iter : nat) (gx : list R) : list R :=
    let zero := repeat 0%R n in
    let run := cg_run n A P b zero in
    cg_init_bw (run 0) (cg_loop_bw run n_iter (Cot gx zero zero 0)).
End Loop.

(** toeplitz_conjugate_gradient, torch/cgd.py:374-391. *)
Definition toeplitz_cg_bw (acf xcorr : list R) (n_iter : nat) (gx : list R) : res (list R) :=
  do P <- circulant_precond Torch acf;
  do Pbw <- circulant_bw acf;
  Ok (cg_bw (length acf) (toeplitz_op Torch acf) (toeplitz_op_bw acf) P Pbw xcorr n_iter gx).

(** As [entry_bw]; coh = sum xcorr * sol, torch/metrics.py:272-275. *)
Definition entry_cg_bw (o : opts) (lx ly : nat) (x y : list R) (w : R) : res chan :=
  match use_cg_iter o with
  | None => entry_bw Torch o lx ly x y w
  | Some it =>
    if Nat.eqb (filter_length o) 1 then entry_bw Torch o lx ly x y w
    else
      let nf := n_fft lx ly in
      let L := filter_length o in
      let acf := add_load (load_diag o) (stats_acf nf L x) in
      let n := length acf in
      let xc := stats_xcorr nf L x y in
      do sol <- toeplitz_cg Torch acf xc it;
      match neg_sdr_bw (clamp_db o) (dot_nth n xc (fun l => nth l sol 0%R)) w with
      | Fin g => do g_rhs <- toeplitz_cg_bw acf xc it (tab n (fun l => g * nth l xc 0)%R);
                 Ok (Some (xcorr_bw nf ly x (tab n (fun l => g * nth l sol 0 + nth l g_rhs 0)%R)))
      | _ => Ok None
      end
  end.

(** As [est_grad]. *)
Definition est_grad_cg (o : opts) (ref : arr) (len : nat) (y : list xr) (w : nat -> R) : res (list xr) :=
  let refs := prep_arr (zero_mean o) ref in
  match fin_list y, prep (zero_mean o) y with
  | Some raw, Some v =>
    do gs <- mapM (fun c => match nth c refs None with
                            | None => Ok None
                            | Some x => entry_cg_bw o (a_len ref) len x v (w c)
                            end) (seq 0 (length refs));
    if existsb tainted gs then Ok (repeat NaN len)
    else
      let g := tab len (fun t => Rsum (length refs) (fun c => nth t (opt0 (nth c gs None)) 0%R)) in
      let y1 := if zero_mean o then map to_R (remove_mean y) else raw in
      let g1 := normalize_bw y1 g in
      Ok (map Fin (if zero_mean o then remove_mean_bw g1 else g1))
  | _, _ => Ok (repeat NaN len)
  end.
