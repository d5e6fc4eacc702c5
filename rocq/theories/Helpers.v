(** * Model of fast_bss_eval/numpy/helpers.py and torch/helpers.py

    One model for both backends, with a [backend] parameter where they differ. *)
From Coq Require Import Reals.
From Verif Require Import Prelude ExtReal Hungarian HungarianTop.
Local Open Scope nat_scope.

Inductive backend : Type := NumPy | Torch.

(** Models clamp, numpy/helpers.py:27-35, and torch.clamp (min applied first,
    then max; both NaN-propagating).  Always called with min; max optional. *)
Definition clamp (x : xr) (mn : option R) (mx : option R) : xr :=
  let x := match mn with Some a => xmax x (Fin a) | None => x end in
  match mx with Some b => xmin x (Fin b) | None => x end.

(** Models _remove_mean, numpy/helpers.py:38-39, torch/helpers.py:30-31, on one
    channel.  The mean of an empty channel is 0/0 = NaN (unused: no sample). *)
Definition remove_mean (x : list xr) : list xr :=
  let mean := xdiv (xsum x) (Fin (INR (length x))) in
  map (fun v => xsub v mean) x.

(** Euclidean norm of one channel (np.linalg.norm / Tensor.norm along time). *)
Definition norm (x : list xr) : xr := xsqrt (xsum (map (fun v => xmul v v) x)).

(** The default eps of _normalize (never overridden by the callers). *)
Definition norm_eps : R := / 10 ^ 6.

(** Models _normalize, numpy/helpers.py:42-46, torch/helpers.py:34-38, on one channel. *)
Definition normalize (x : list xr) : list xr :=
  let d := clamp (norm x) (Some norm_eps) None in
  map (fun v => xdiv v d) x.

(** Models _db_clamp_eps, numpy/helpers.py:49-52, torch/helpers.py:41-44. *)
Definition db_clamp_eps (db_max : R) : R :=
  let e := Rpower 10 (- db_max / 10) in (e / (1 + e))%R.

(** Models _coherence_to_neg_sdr, numpy/helpers.py:55-69, torch/helpers.py:47-63,
    on one entry. *)
Definition coherence_to_neg_sdr (clamp_db : option R) (coh : xr) : xr :=
  let eps := match clamp_db with Some d => db_clamp_eps d | None => 0%R end in
  let coh := clamp coh (Some eps) (Some (1 - eps)%R) in
  let ratio := xdiv (xsub (Fin 1) coh) coh in
  xmul (Fin 10) (xlog10 ratio).

(** ** Assignment *)

(** scipy.optimize.linear_sum_assignment on a finite matrix is external code: the
    model takes it as an argument (the theorems assume it returns an optimal
    assignment, rows in increasing order). *)
Definition scipy_lsa : Type := nat -> nat -> (nat -> nat -> R) -> list (nat * nat).

Definition existsb2 (n m : nat) (p : nat -> nat -> bool) : bool :=
  match nonzero2 n m p with [] => false | _ => true end.

(** Entries of an n x m matrix in row-major order. *)
Definition entries (n m : nat) (C : nat -> nat -> xr) : list xr :=
  map (fun p => C (fst p) (snd p)) (list_prod (seq 0 n) (seq 0 m)).

(** values.min() / values.max(): NaN-propagating; raises on an empty array
    (numpy: ValueError "zero-size array to reduction operation", torch:
    RuntimeError "Expected reduction dim to be specified for input.numel() == 0"). *)
Definition reduce_exn (b : backend) : exn :=
  match b with NumPy => ValueError | Torch => RuntimeError end.
Definition values_min (b : backend) (l : list xr) : res xr :=
  match l with [] => Raise (reduce_exn b) | x :: r => Ok (fold_left xmin r x) end.
Definition values_max (b : backend) (l : list xr) : res xr :=
  match l with [] => Raise (reduce_exn b) | x :: r => Ok (fold_left xmax r x) end.

(** linear_sum_assignment after the replacement of infinite entries: numpy calls
    scipy (which raises ValueError on NaN and on -inf entries); torch calls
    torch/hungarian.py:82-113 (which raises ValueError on NaN).  Infinite entries
    cannot reach this call (proved); the model maps them to ValueError. *)
Definition lsa (b : backend) (sp : scipy_lsa) (n m : nat) (C : nat -> nat -> xr)
  : res (list (nat * nat)) :=
  if existsb2 n m (fun i j => negb (is_fin (C i j))) then Raise ValueError
  else
    let c := fun i j => to_R (C i j) in
    match b with
    | NumPy => Ok (sp n m c)
    | Torch => linear_sum_assignment R_ops (run_fuel (Nat.min n m)) n m c
    end.

(** Models _linear_sum_assignment_with_inf, numpy/helpers.py:115-149 and
    torch/helpers.py:109-157, on an n x m matrix. *)
Definition lsa_with_inf (b : backend) (sp : scipy_lsa) (n m : nat) (C : nat -> nat -> xr)
  : res (list (nat * nat)) :=
  (* torch/helpers.py:122-123: if cost_matrix.numel() == 0: return empty *)
  if (match b with Torch => Nat.eqb (n * m) 0 | NumPy => false end) then Ok []
  else
    let min_inf := existsb2 n m (fun i j => is_neginf (C i j)) in
    let max_inf := existsb2 n m (fun i j => is_posinf (C i j)) in
    if min_inf && max_inf then Raise ValueError
    else if min_inf || max_inf then
      let values := filter (fun v => negb (is_inf v)) (entries n m C) in
      do mi <- values_min b values;
      do ma <- values_max b values;
      let nn := Fin (INR (Nat.min n m)) in
      let positive :=
        xmul nn (xadd (xadd (xadd (xsub ma mi) (xabs ma)) (xabs mi)) (Fin 1)) in
      let nn1 := xsub nn (Fin 1) in
      let place_holder :=
        if min_inf then xsub (xadd mi (xmul nn1 (xsub mi ma))) positive
        else xadd (xadd ma (xmul nn1 (xsub ma mi))) positive in
      lsa b sp n m (fun i j => if is_inf (C i j) then place_holder else C i j)
    else lsa b sp n m C.

(** Models _solve_permutation, numpy/helpers.py:72-112, torch/helpers.py:67-104, on a
    single matrix (b_shape = ()); [args] are the extra matrices.  The batch loop
    is modelled in Batch.v.  Returns (loss_out, args_out, p_opt). *)
Definition solve_permutation (b : backend) (sp : scipy_lsa) (n_ref n_est : nat)
    (loss : nat -> nat -> xr) (args : list (nat -> nat -> xr))
  : res (list xr * list (list xr) * list nat) :=
  let swap := Nat.ltb n_est n_ref in
  let tr := fun (M : nat -> nat -> xr) => if swap then (fun i j => M j i) else M in
  let n := if swap then n_est else n_ref in
  let m := if swap then n_ref else n_est in
  let loss := tr loss in
  let args := map tr args in
  do l <- lsa_with_inf b sp n m loss;
  let pick := fun (M : nat -> nat -> xr) => map (fun p => M (fst p) (snd p)) l in
  Ok (pick loss, map pick args, map snd l).
