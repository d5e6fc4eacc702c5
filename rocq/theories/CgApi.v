(** * conjugate_gradient called on its own (numpy/cgd.py:291-363, torch/cgd.py:299-371)
    Cgd.v follows one right-hand side with a given number of iterations; here the arrays have all
    their columns, and x, n_iter, precond and x_true may be left out.  Simplified: real entries, A
    square with ndim 2 (no batch axes; C72 has them); print is left out; an x_true whose rows are
    not broadcast to those of b is an error; with no column at all the mean error is 0 (NaN in the
    code). *)
From Coq Require Import Reals.
From Verif Require Import Prelude ExtReal Sums SpecSig Helpers Linalg Cgd.
Local Open Scope nat_scope.

(** Arrays: a number, a vector, or a matrix with [n] rows given by the list of its columns. *)
Inductive nd := Num (a : R) | Vec (v : list R) | Mat (n : nat) (c : list (list R)).

(** What can stand at the left of @: shape (n, n), or no shape for IdentityOperator
    (numpy/cgd.py:282-284); the product with a vector; the errors for the wrong number of rows and
    for a 1-D array at the right. *)
Record operator := Operator {
  op_dim : option nat; op_fun : list R -> list R; op_bad : exn; op_vec : option exn }.

(** A 2-D array. *)
Definition dense_op (b : backend) (n : nat) (M : nat -> nat -> R) : operator :=
  Operator (Some n) (fun v => tab n (fun i => Rsum n (fun j => M i j * nth j v 0)%R)) (shape_exn b) None.
(** IdentityOperator, numpy/cgd.py:282-284, torch/cgd.py:290-292. *)
Definition identity_op : operator := Operator None (fun v => v) AssertionError None.
(** SymmetricToeplitzOperator, numpy/cgd.py:119-157: checks in __matmul__, 146-157. *)
Definition toeplitz_operator (b : backend) (acf : list R) : operator :=
  Operator (Some (length acf)) (toeplitz_op b acf) AssertionError (Some ValueError).
(** CirculantPreconditionerOperator, numpy/cgd.py:80-116: checks in __matmul__, 102-116. *)
Definition circulant_operator (acf : list R) (P : list R -> list R) : operator :=
  Operator (Some (length acf)) P AssertionError (Some ValueError).
(** BlockToeplitzOperator, numpy/cgd.py:208-279: lhs.shape[-2] of a 1-D array, 263. *)
Definition block_operator (b : backend) (top n_chan : nat) (acf : nat -> nat -> list R) : operator :=
  Operator (Some (top / 2 * n_chan)) (block_toeplitz_op b top n_chan acf) AssertionError (Some IndexError).

Definition fits (op : operator) (n : nat) : bool :=
  match op_dim op with Some m => Nat.eqb m n | None => true end.
(** op @ x *)
Definition matmul (op : operator) (x : nd) : res nd :=
  match x with
  | Num _ => Raise (match op_vec op with Some e => e | None => op_bad op end)
  | Vec v => match op_vec op with
             | Some e => Raise e
             | None => if fits op (length v) then Ok (Vec (op_fun op v)) else Raise (op_bad op)
             end
  | Mat n c => if fits op n then Ok (Mat n (map (op_fun op) c)) else Raise (op_bad op)
  end.

(** The columns of an array broadcast to [n] rows; a vector is one row. *)
Definition cols_of (b : backend) (n : nat) (x : nd) : res (list (list R)) :=
  match x with
  | Num a => Ok [repeat a n]
  | Vec v => Ok (map (fun a => repeat a n) v)
  | Mat m c => if Nat.eqb m n then Ok c
               else if Nat.eqb m 1 then Ok (map (fun v => repeat (nth 0 v 0%R) n) c)
               else Raise (shape_exn b)
  end.
(** Elementwise operation between two lists of columns, a single column being broadcast. *)
Definition on_cols (b : backend) (f : R -> R -> R) (c d : list (list R)) : res (list (list R)) :=
  if Nat.eqb (length c) (length d) then Ok (zip_with (zip_with f) c d)
  else if Nat.eqb (length c) 1 then Ok (map (zip_with f (nth 0 c [])) d)
  else if Nat.eqb (length d) 1 then Ok (map (fun u => zip_with f u (nth 0 d [])) c)
  else Raise (shape_exn b).
Definition bcast (b : backend) (n : nat) (f : R -> R -> R) (x y : nd) : res (list (list R)) :=
  do c <- cols_of b n x; do d <- cols_of b n y; on_cols b f c d.

(** inner_prod, numpy/cgd.py:287-288, torch/cgd.py:295-296: one number per column. *)
Definition inner_prod (n : nat) (c d : list (list R)) : list R := zip_with (dotl n) c d.
(** alpha[..., None, :] * p *)
Definition scale_cols (al : list R) (p : list (list R)) : list (list R) :=
  zip_with (fun a v => map (Rmult a) v) al p.
(** np.mean(np.linalg.norm(x - x_true, axis=-2)), numpy/cgd.py:336,357. *)
Definition mean_error (b : backend) (n : nat) (x x_true : nd) : res R :=
  do d <- bcast b n Rminus x x_true;
  Ok (Rsum (length d) (fun j => norm2 (nth j d [])) / INR (length d))%R.

Record cgm := CGM { m_x : nd; m_r : list (list R); m_p : list (list R); m_rs : list R; m_err : list R }.

(** The columns of a 2-D product. *)
Definition mat_cols (x : nd) : res (list (list R)) :=
  match x with Mat _ c => Ok c | _ => Raise ValueError end.

Definition error_of (b : backend) (n : nat) (x : nd) (x_true : option nd) : res (list R) :=
  match x_true with None => Ok [] | Some t => do e <- mean_error b n x t; Ok [e] end.

(** Before the loop, numpy/cgd.py:326-336; [bb] holds the columns of b. *)
Definition cgm_init (b : backend) (A P : operator) (n : nat) (bb : list (list R)) (x : nd)
    (x_true : option nd) : res cgm :=
  do Ax <- matmul A x;
  do r <- bcast b n Rminus (Mat n bb) Ax;
  do z' <- matmul P (Mat n r);
  do z <- mat_cols z';
  do e <- error_of b n x x_true;
  Ok (CGM x r z (inner_prod n r z) e).

(** The body of the loop, numpy/cgd.py:338-357 ([epoch + 1 % 5 == 0] as in the code). *)
Definition cgm_step (b : backend) (A P : operator) (n : nat) (bb : list (list R))
    (x_true : option nd) (epoch : nat) (s : cgm) : res cgm :=
  do Ap' <- matmul A (Mat n (m_p s));
  do Ap <- mat_cols Ap';
  let pAp := inner_prod n (m_p s) Ap in
  let alpha := zip_with (fun u v => u / Rmax v cg_eps)%R (m_rs s) pAp in
  do x <- bcast b n Rplus (m_x s) (Mat n (scale_cols alpha (m_p s)));
  do r <- (if Nat.eqb (epoch + 1 mod 5) 0
           then do Ax <- matmul A (Mat n x); bcast b n Rminus (Mat n bb) Ax
           else bcast b n Rminus (Mat n (m_r s)) (Mat n (scale_cols alpha Ap)));
  do z' <- matmul P (Mat n r);
  do z <- mat_cols z';
  let rsnew := inner_prod n r z in
  let beta := zip_with (fun u v => u / Rmax v cg_eps)%R rsnew (m_rs s) in
  do p <- bcast b n Rplus (Mat n z) (Mat n (scale_cols beta (m_p s)));
  do e <- error_of b n (Mat n x) x_true;
  Ok (CGM (Mat n x) r p rsnew (m_err s ++ e)).

Fixpoint cgm_loop (b : backend) (A P : operator) (n : nat) (bb : list (list R)) (x_true : option nd)
    (k epoch : nat) (s : cgm) : res cgm :=
  match k with
  | 0 => Ok s
  | S k' => do s' <- cgm_step b A P n bb x_true epoch s; cgm_loop b A P n bb x_true k' (S epoch) s'
  end.

(** x[..., 0] *)
Definition first_entry (x : nd) : res nd :=
  match x with
  | Num _ => Raise IndexError
  | Vec (a :: _) => Ok (Num a)
  | Mat _ (v :: _) => Ok (Vec v)
  | _ => Raise IndexError
  end.
(** x_true[..., None], numpy/cgd.py:331-332. *)
Definition add_axis (x : nd) : nd :=
  match x with Num a => Vec [a] | Vec v => Mat (length v) [v] | Mat n c => Mat n c end.

(** conjugate_gradient, numpy/cgd.py:291-363, torch/cgd.py:299-371.  The result is x with the list of
    errors when x_true is given. *)
Definition cg_call (b : backend) (A : operator) (rhs : nd) (x : option nd) (n_iter : option nat)
    (precond : option operator) (x_true : option nd) : res (nd * option (list R)) :=
  let vector := match rhs with Vec _ => true | _ => false end in
  match (if vector then add_axis rhs else rhs) with
  | Mat n bb =>
      if fits A n then
        let x0 := match x with Some v => v | None => Mat n (map (fun _ => repeat 0%R n) bb) end in
        let it := match n_iter with Some k => k | None => length bb end in
        let P := match precond with Some p => p | None => identity_op end in
        let t := match x_true with Some t => Some (if vector then add_axis t else t) | None => None end in
        do s0 <- cgm_init b A P n bb x0 t;
        do s <- cgm_loop b A P n bb t it 0 s0;
        do v <- (if vector then first_entry (m_x s) else Ok (m_x s));
        Ok (v, match x_true with Some _ => Some (m_err s) | None => None end)
      else Raise AssertionError
  | _ => Raise AssertionError
  end.

(** toeplitz_conjugate_gradient, numpy/cgd.py:366-383, torch/cgd.py:374-391. *)
Definition toeplitz_cg_call (b : backend) (acf : list R) (xcorr : nd) (x : option nd)
    (n_iter : option nat) (x_true : option nd) : res (nd * option (list R)) :=
  do P <- circulant_precond b acf;
  cg_call b (toeplitz_operator b acf) xcorr x n_iter (Some (circulant_operator acf P)) x_true.
