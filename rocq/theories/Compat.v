(** * The wrappers of torch/compatibility.py for torch < 1.8 (and einsum_complex)

    Data along the transformed axis only, as in Fft.v.  In the old complex format the
    last axis holds the real and the imaginary part; it is a list here, as the wrapper
    for irfft pads it. *)
From Coq Require Import Reals.
From Coquelicot Require Import Complex.
From Verif Require Import Prelude Sums Fft Slice Linalg Cgd Helpers Metrics.
Local Open Scope nat_scope.

(** torch.rfft(x, 1) of torch < 1.8 (external): all samples, one-sided. *)
Definition torch_rfft (x : list R) : list (list R) :=
  map (fun z : C => [fst z; snd z]) (rfft (length x) x).

(** torch.irfft(x, 1, signal_sizes=[n]) of torch < 1.8 (external): the last axis must
    have size 2 and the number of frequencies must be that of n real samples. *)
Definition torch_irfft (x : list (list R)) (n : nat) : res (list R) :=
  if forallb (fun r => Nat.eqb (length r) 2) x && Nat.eqb (length x) (n / 2 + 1)
  then Ok (irfft n (map (fun r => (nth 0 r 0%R, nth 1 r 0%R)) x))
  else Raise RuntimeError.

(** Models rfft, torch/compatibility.py:51-67. *)
Definition old_rfft (n : option nat) (x : list R) : list C :=
  let x := match n with
           | None => x
           | Some n =>
               if Nat.ltb (length x) n then x ++ repeat 0%R (n - length x)
               else if Nat.ltb n (length x) then pyslice None (Some (Z.of_nat n)) 1 x
               else x
           end in
  map (fun r => (nth 0 r 0%R, nth 1 r 0%R)) (torch_rfft x).

(** Models irfft, torch/compatibility.py:69-96.  [pad(x, (0, k, 0, 0))] pads the last
    axis, i.e. the one holding the real and imaginary parts.  With n = None the signal
    size is computed from the last axis of x, whose length is 2. *)
Definition old_irfft (n : option nat) (Z : list C) : res (list R) :=
  let x := map (fun z : C => [fst z; snd z]) Z in
  match n with
  | Some n =>
      let n_freq := n / 2 + 1 in
      let x := if Nat.ltb n_freq (length x) then pyslice None (Some (Z.of_nat n_freq)) 1 x
               else if Nat.ltb (length x) n_freq
               then map (fun r => r ++ repeat 0%R (n_freq - length x)) x
               else x in
      torch_irfft x n
  | None => torch_irfft x ((2 - 1) * 2)
  end.

(** The modern ones: torch.fft.rfft and torch.fft.irfft, torch/compatibility.py:98-109. *)
Definition new_rfft (n : option nat) (x : list R) : list C :=
  rfft (match n with Some n => n | None => length x end) x.
Definition new_irfft (n : option nat) (Z : list C) : list R :=
  irfft (match n with Some n => n | None => 2 * (length Z - 1) end) Z.

(** Models einsum_complex, torch/compatibility.py:151-161, for a contraction over one
    axis of length n. *)
Definition einsum_complex (n : nat) (op1 op2 : nat -> C) : C :=
  let rr := Rsum n (fun i => fst (op1 i) * fst (op2 i))%R in
  let ri := Rsum n (fun i => fst (op1 i) * snd (op2 i))%R in
  let ir := Rsum n (fun i => snd (op1 i) * fst (op2 i))%R in
  let ii := Rsum n (fun i => snd (op1 i) * snd (op2 i))%R in
  (rr - ii, ri + ir)%R.

(** compute_stats run with the old wrappers, torch/metrics.py:114-130. *)
Definition old_stats_acf (nf L : nat) (x : list R) : res (list R) :=
  do a <- old_irfft (Some nf) (map (fun z => RtoC (fst z ^ 2 + snd z ^ 2)) (old_rfft (Some nf) x));
  Ok (cut L a).
Definition old_stats_xcorr (nf L : nat) (x y : list R) : res (list R) :=
  do a <- old_irfft (Some nf)
            (zip_with (fun a b => Cmult (Cconj a) b) (old_rfft (Some nf) x) (old_rfft (Some nf) y));
  Ok (cut L a).
(** compute_stats_2, torch/metrics.py:165-178. *)
Definition old_stats2_acf (nf L : nat) (x1 x2 : list R) : res (list R) :=
  do a <- old_irfft (Some nf)
            (zip_with (fun a b => Cmult a (Cconj b)) (old_rfft (Some nf) x1) (old_rfft (Some nf) x2));
  Ok (cut L a ++ pyslice (Some (- Z.of_nat L)%Z) None 1 a).

(** The operators of the iterative solver with the old wrappers: torch/cgd.py:83-123,
    126-165 and the product of torch/cgd.py:208-210, 277-279. *)
Definition old_circulant_precond (col : list R) : res (list R -> res (list R)) :=
  do c <- sym_precond_col Torch col;
  let n := length c in
  let Ci := map (precond_freq Torch) (old_rfft None c) in
  Ok (fun v => old_irfft (Some n) (zip_with Cmult Ci (old_rfft (Some n) v))).
Definition old_toeplitz_op (col : list R) (v : list R) : res (list R) :=
  let n_col := length col in
  let n_fft := 2 * n_col in
  let pad_len := n_fft - 2 * n_col + 1 in
  let circ_col := col ++ repeat 0%R pad_len ++ flip (pyslice (Some 1%Z) None 1 col) in
  let Cforward := old_rfft None circ_col in
  do y <- old_irfft (Some n_fft) (zip_with Cmult (old_rfft (Some n_fft) v) Cforward);
  Ok (pyslice None (Some (Z.of_nat n_col)) 1 y).
Definition old_block_apply (n_fft n n_chan : nat) (Cf : nat -> nat -> list C) (v : list R) (r : nat)
  : res (list R) :=
  old_irfft (Some n_fft) (tab (n_fft / 2 + 1) (fun k =>
    Csum n_chan (fun c => Cmult (nth k (Cf r c) (RtoC 0))
                                (nth k (old_rfft (Some n_fft) (chan_of n_chan n c v)) (RtoC 0))))).
