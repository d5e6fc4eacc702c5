(** * Model of fast_bss_eval/numpy/cgd.py and torch/cgd.py

    Everything in the iterative solver acts on each right-hand-side column (and each
    batch item) separately, so the model treats one column.  Vectors are lists. *)
From Coq Require Import Reals.
From Coquelicot Require Import Complex.
From Verif Require Import Prelude ExtReal Slice Sums Fft Helpers Linalg.
Local Open Scope nat_scope.

Definition zip_with {A B D} (f : A -> B -> D) (l1 : list A) (l2 : list B) : list D :=
  map (fun p => f (fst p) (snd p)) (combine l1 l2).

(** Elementwise operation on 1-D arrays with NumPy / torch broadcasting. *)
Definition ewise (b : backend) (f : R -> R -> R) (l1 l2 : list R) : res (list R) :=
  if Nat.eqb (length l1) (length l2) then Ok (zip_with f l1 l2)
  else if Nat.eqb (length l1) 1 then Ok (map (fun v => f (nth 0 l1 0%R) v) l2)
  else if Nat.eqb (length l2) 1 then Ok (map (fun v => f v (nth 0 l2 0%R)) l1)
  else Raise (shape_exn b).

(** arange(1, n) / n *)
Definition ramp (n : nat) : list R := tab (n - 1) (fun k => INR (k + 1) / INR n)%R.

Definition reversed {A} (b : backend) (l : list A) : list A :=
  match b with NumPy => pyslice None None (-1) l | Torch => flip l end.

(** Models optimal_symmetric_circulant_precond_column, numpy/cgd.py:28-40,
    torch/cgd.py:29-41. *)
Definition sym_precond_col (b : backend) (col : list R) : res (list R) :=
  let n := length col in
  do w <- ewise b Rmult (pyslice (Some 1%Z) None 1 col) (reversed b (ramp n));
  do w2 <- ewise b Rplus w (reversed b w);
  Ok (pyslice None (Some 1%Z) 1 col ++ w2).

(** Models optimal_nonsymmetric_circulant_precond_column, numpy/cgd.py:43-77,
    torch/cgd.py:44-80, with n = None, along the lag axis, for one (row, column) pair
    of channels. *)
Definition nonsym_precond_col (b : backend) (r : list R) : res (list R) :=
  let n := (length r + 1) / 2 in
  let bb := ramp n in
  let s1 := match b with
            | NumPy => pyslice (Some (Z.of_nat n - 1)%Z) (Some 0%Z) (-1) r
            | Torch => flip (pyslice (Some 1%Z) (Some (Z.of_nat n)) 1 r) end in
  let s2 := match b with
            | NumPy => pyslice None (Some (- Z.of_nat n)%Z) (-1) r
            | Torch => flip (pyslice (Some (- Z.of_nat n + 1)%Z) None 1 r) end in
  do w1 <- ewise b Rmult bb s1;
  do w2 <- ewise b Rmult (map (fun v => 1 - v)%R bb) s2;
  do w <- ewise b Rplus w1 w2;
  Ok (pyslice None (Some 1%Z) 1 r ++ w).

(** The constant 1e-6 of the safeguards. *)
Definition cg_eps : R := / 10 ^ 6.

(** Models CirculantPreconditionerOperator, numpy/cgd.py:80-116, torch/cgd.py:83-123.
    conj(C) / clamp(C.real**2 + C.imag**2, min=1e-6); torch divides first and
    conjugates afterwards. *)
Definition precond_freq (b : backend) (z : C) : C :=
  let den := RtoC (Rmax (fst z ^ 2 + snd z ^ 2) cg_eps) in
  match b with
  | NumPy => Cdiv (Cconj z) den
  | Torch => Cconj (Cdiv z den)
  end.
Definition circulant_precond (b : backend) (col : list R) : res (list R -> list R) :=
  do c <- sym_precond_col b col;
  let n := length c in
  let Ci := map (precond_freq b) (rfft n c) in
  Ok (fun v => irfft n (zip_with Cmult Ci (rfft n v))).

(** Models SymmetricToeplitzOperator, numpy/cgd.py:119-157, torch/cgd.py:127-165. *)
Definition toeplitz_op (b : backend) (col : list R) : list R -> list R :=
  let n_col := length col in
  let n_fft := 2 * n_col in
  let pad_len := n_fft - 2 * n_col + 1 in
  let tail := match b with
              | NumPy => pyslice None (Some 0%Z) (-1) col
              | Torch => flip (pyslice (Some 1%Z) None 1 col) end in
  let circ_col := col ++ repeat 0%R pad_len ++ tail in
  let Cforward := rfft (length circ_col) circ_col in
  fun v => pyslice None (Some (Z.of_nat n_col)) 1
             (irfft n_fft (zip_with Cmult (rfft n_fft v) Cforward)).

(** Channel c of a lag-major vector: lhs.reshape(-1, n_chan)[:, c]. *)
Definition chan_of (n_chan n c : nat) (v : list R) : list R :=
  tab n (fun l => nth (l * n_chan + c) v 0%R).
(** Inverse of the above: flattening of (lag, channel) arrays. *)
Definition flatten (n_chan n : nat) (f : nat -> list R) : list R :=
  tab (n * n_chan) (fun i => nth (i / n_chan) (f (i mod n_chan)) 0%R).

(** Block operator application in the frequency domain:
    einsum("...rc,...cm->...rm", C, rfft(lhs, n)), then irfft(n). *)
Definition block_apply (n_fft n n_chan : nat) (Cf : nat -> nat -> list C) (v : list R) (r : nat)
  : list R :=
  irfft n_fft (tab (n_fft / 2 + 1) (fun k =>
    Csum n_chan (fun c => Cmult (nth k (Cf r c) (RtoC 0))
                                (nth k (rfft n_fft (chan_of n_chan n c v)) (RtoC 0))))).

(** All entries of an n x n array of results. *)
Definition all_ok {A} (n : nat) (f : nat -> nat -> res A) (d : A) : res (nat -> nat -> A) :=
  do _ <- mapM (fun p => f (fst p) (snd p)) (list_prod (seq 0 n) (seq 0 n));
  Ok (fun i j => match f i j with Ok a => a | Raise _ => d end).

(** Models BlockCirculantPreconditionerOperator, numpy/cgd.py:160-205,
    torch/cgd.py:168-213.  [col r c] is the list along the lag axis.  One complex
    matrix inverse per frequency. *)
Definition block_precond (b : backend) (n_chan : nat) (col : nat -> nat -> list R)
  : res (list R -> list R) :=
  do c <- all_ok n_chan (fun r c => nonsym_precond_col b (col r c)) [];
  let n := length (c 0 0) in
  let F := fun r s => rfft n (c r s) in
  do inv <- mapM (fun k => cinv n_chan (fun r s => nth k (F r s) (RtoC 0))) (seq 0 (n / 2 + 1));
  let Ci := fun r s => map (fun M : nat -> nat -> C => M r s) inv in
  Ok (fun v => flatten n_chan n (block_apply n n n_chan Ci v)).

(** Models BlockToeplitzOperator, numpy/cgd.py:208-279, torch/cgd.py:216-287. *)
Definition block_circ_col (b : backend) (n_col n_fft : nat) (r : list R) : list R :=
  let pad_len := n_fft - 2 * n_col + 1 in
  match b with
  | NumPy =>
      pyslice None (Some 1%Z) 1 r ++
      pyslice None (Some (- Z.of_nat n_col)%Z) (-1) r ++
      repeat 0%R pad_len ++
      pyslice (Some (Z.of_nat n_col - 1)%Z) (Some 0%Z) (-1) r
  | Torch =>
      pyslice None (Some 1%Z) 1 r ++
      flip (pyslice (Some (- Z.of_nat n_col + 1)%Z) None 1 r) ++
      repeat 0%R pad_len ++
      flip (pyslice (Some 1%Z) (Some (Z.of_nat n_col)) 1 r)
  end.
Definition block_toeplitz_op (b : backend) (top n_chan : nat) (col : nat -> nat -> list R)
  : list R -> list R :=
  let n_col := top / 2 in
  let n_fft := 2 ^ Nat.log2_up (2 * n_col) in
  let Cf := fun r c => let cc := block_circ_col b n_col n_fft (col r c) in rfft (length cc) cc in
  fun v => flatten n_chan n_col (fun r =>
    pyslice None (Some (Z.of_nat n_col)) 1 (block_apply n_fft n_col n_chan Cf v r)).

(** ** conjugate_gradient *)
Definition dotl (n : nat) (a b : list R) : R := Rsum n (fun i => nth i a 0 * nth i b 0)%R.
(** x + a * p *)
Definition axpy (n : nat) (x : list R) (a : R) (p : list R) : list R :=
  tab n (fun i => nth i x 0 + a * nth i p 0)%R.

Record cg_state := CG { cg_x : list R; cg_r : list R; cg_p : list R; cg_rs : R }.

(** State before the loop, numpy/cgd.py:311-331. *)
Definition cg_init (n : nat) (A P : list R -> list R) (b x : list R) : cg_state :=
  let r := axpy n b (-1) (A x) in
  let z := P r in
  CG x r z (dotl n r z).

(** Body of the loop, numpy/cgd.py:338-354 ([epoch + 1 % 5 == 0] as in the code). *)
Definition cg_step (n : nat) (A P : list R -> list R) (b : list R) (epoch : nat) (s : cg_state)
  : cg_state :=
  let Ap := A (cg_p s) in
  let pAp := dotl n (cg_p s) Ap in
  let alpha := (cg_rs s / Rmax pAp cg_eps)%R in
  let x := axpy n (cg_x s) alpha (cg_p s) in
  let r := if Nat.eqb (epoch + 1 mod 5) 0 then axpy n b (-1) (A x)
           else axpy n (cg_r s) (- alpha) Ap in
  let z := P r in
  let rsnew := dotl n r z in
  let beta := (rsnew / Rmax (cg_rs s) cg_eps)%R in
  CG x r (axpy n z beta (cg_p s)) rsnew.

(** Models conjugate_gradient, numpy/cgd.py:291-363, torch/cgd.py:299-371, for one
    column, without the x_true / verbose instrumentation. *)
Definition cg_run (n : nat) (A P : list R -> list R) (b x : list R) (n_iter : nat) : cg_state :=
  fold_left (fun s e => cg_step n A P b e s) (seq 0 n_iter) (cg_init n A P b x).
Definition conjugate_gradient (n : nat) (A P : list R -> list R) (b x : list R) (n_iter : nat)
  : list R := cg_x (cg_run n A P b x n_iter).

(** Models toeplitz_conjugate_gradient, numpy/cgd.py:366-383, torch/cgd.py:374-391, for one
    column xcorr, x = None.  The assertion of conjugate_gradient checks the sizes. *)
Definition toeplitz_cg (b : backend) (acf xcorr : list R) (n_iter : nat) : res (list R) :=
  do P <- circulant_precond b acf;
  let n := length acf in
  if Nat.eqb n (length xcorr)
  then Ok (conjugate_gradient n (toeplitz_op b acf) P xcorr (repeat 0%R n) n_iter)
  else Raise AssertionError.

(** Models block_toeplitz_conjugate_gradient, numpy/cgd.py:386-404, torch/cgd.py:394-411, for
    one column (lag-major vector). *)
Definition block_toeplitz_cg (b : backend) (top n_chan : nat) (acf : nat -> nat -> list R)
    (xcorr : list R) (x0 : option (list R)) (n_iter : nat) : res (list R) :=
  do P <- block_precond b n_chan acf;
  let n := top / 2 * n_chan in
  if Nat.eqb n (length xcorr)
  then Ok (conjugate_gradient n (block_toeplitz_op b top n_chan acf) P xcorr
             (match x0 with Some x => x | None => repeat 0%R n end) n_iter)
  else Raise AssertionError.
