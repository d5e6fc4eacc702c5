(** * Model of fast_bss_eval/numpy/linalg.py, torch/linalg.py and of linalg.solve

    Matrices are functions with explicit dimensions. *)
From Coq Require Import Reals.
From Coquelicot Require Import Complex.
From Verif Require Import Prelude ExtReal Slice Sums Helpers.
Local Open Scope nat_scope.

(** A matrix view with its shape. *)
Record mat := Mat { nrow : nat; ncol : nat; ent : nat -> nat -> R }.

(** Models hankel_view, numpy/linalg.py:24-29, torch/linalg.py:24-30, on one vector:
    a strided view, entry (i, j) is x[i + j]. *)
Definition hankel_view (x : list R) (n_rows : nat) : mat :=
  Mat n_rows (length x + 1 - n_rows) (fun i j => nth (i + j) x 0%R).

(** Row reversal H[::-1, :]. *)
Definition flip_rows (M : mat) : mat :=
  Mat (nrow M) (ncol M) (fun i j => ent M (nrow M - 1 - i) j).

(** Models toeplitz, numpy/linalg.py:32-39, torch/linalg.py:33-40, on one vector. *)
Definition toeplitz (b : backend) (x : list R) : mat :=
  let two_x :=
    match b with
    | NumPy => pyslice None (Some 0%Z) (-1) x
    | Torch => flip (pyslice (Some 1%Z) None 1 x)
    end ++ x in
  flip_rows (hankel_view two_x (length x)).

Definition shape_exn (b : backend) : exn :=
  match b with NumPy => ValueError | Torch => RuntimeError end.

(** Models block_toeplitz, numpy/linalg.py:42-61, torch/linalg.py:44-62, with n = None.
    The input of shape (top, rows, cols) is given as one list of length [top] per
    (r, c).  The assignment out[:, r, :, c] = T raises when T is not n x n (or n x 1).
    The reshape makes row (i, r) of the output row i * rows + r. *)
Definition bt_block (n : nat) (x : list R) : mat :=
  let vec := pyslice (Some (- Z.of_nat n + 1)%Z) None 1 x
             ++ pyslice None (Some (Z.of_nat n)) 1 x in
  flip_rows (hankel_view vec n).
Definition block_toeplitz (b : backend) (top rows cols : nat) (x : nat -> nat -> list R)
  : res (nat -> nat -> R) :=
  let n := top / 2 in
  if existsb2 rows cols (fun r c => negb (Nat.eqb (ncol (bt_block n (x r c))) n))
  then Raise (shape_exn b)
  else Ok (fun p q => ent (bt_block n (x (p mod rows) (q mod cols))) (p / rows) (q / cols)).

(** ** Linear systems

    External code: numpy.linalg.solve / torch.linalg.solve (LAPACK gesv) and
    numpy.linalg.inv / torch.linalg.inv.  Modelled by exact Gaussian elimination with
    row exchanges over any field (the result does not depend on the choice of the
    pivot, see LinalgProofs.v).  [None] means singular. *)
Section Solve.
  Context {T : Type} (zero : T) (add mul sub div : T -> T -> T)
          (eq_dec : forall x y : T, {x = y} + {x <> y}).

  Definition swap0 (p i : nat) : nat :=
    if Nat.eqb i 0 then p else if Nat.eqb i p then 0 else i.

  Fixpoint gsolve (n : nat) (A : nat -> nat -> T) (b : nat -> T) : option (nat -> T) :=
    match n with
    | O => Some (fun _ => zero)
    | S k =>
        match find (fun i => if eq_dec (A i 0) zero then false else true) (seq 0 (S k)) with
        | None => None
        | Some p =>
            let A' := fun i j => A (swap0 p i) j in
            let b' := fun i => b (swap0 p i) in
            let B := fun i j => sub (A' (S i) (S j)) (mul (div (A' (S i) 0) (A' 0 0)) (A' 0 (S j))) in
            let c := fun i => sub (b' (S i)) (mul (div (A' (S i) 0) (A' 0 0)) (b' 0)) in
            match gsolve k B c with
            | None => None
            | Some x =>
                Some (fun j => match j with
                  | O => div (sub (b' 0) (gsum zero add k (fun l => mul (A' 0 (S l)) (x l)))) (A' 0 0)
                  | S l => x l
                  end)
            end
        end
    end.
End Solve.

Lemma Ceq_dec : forall x y : C, {x = y} + {x <> y}.
Proof.
  intros [a b] [c d].
  destruct (Req_EM_T a c) as [->|H]; [destruct (Req_EM_T b d) as [->|H]|];
    [left; reflexivity|right; congruence|right; congruence].
Defined.

Definition Rsolve := gsolve 0%R Rplus Rmult Rminus Rdiv Req_EM_T.
Definition Csolve := gsolve (RtoC 0) Cplus Cmult Cminus Cdiv Ceq_dec.

(** linalg.solve(A, B) with a matrix B of m columns. *)
Definition solve_cols (n m : nat) (A : nat -> nat -> R) (B : nat -> nat -> R)
  : res (nat -> nat -> R) :=
  match Rsolve n A (fun _ => 0%R) with
  | None => Raise LinAlgError
  | Some _ => Ok (fun i d => match Rsolve n A (fun i => B i d) with
                             | Some x => x i | None => 0%R end)
  end.
(** linalg.solve(A, b) with a vector b. *)
Definition solve_vec (n : nat) (A : nat -> nat -> R) (b : nat -> R) : res (nat -> R) :=
  match Rsolve n A b with None => Raise LinAlgError | Some x => Ok x end.
(** linalg.inv of a complex matrix. *)
Definition cinv (n : nat) (A : nat -> nat -> C) : res (nat -> nat -> C) :=
  match Csolve n A (fun _ => RtoC 0) with
  | None => Raise LinAlgError
  | Some _ => Ok (fun i j => match Csolve n A (fun i => if Nat.eqb i j then RtoC 1 else RtoC 0) with
                             | Some x => x i | None => RtoC 0 end)
  end.
