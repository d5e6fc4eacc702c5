(** * The metrics on arrays with batch axes, line by line

    Metrics.v and Cgd.v describe what happens to one item of a batch, one pair of
    channels, one right-hand side.  Here the functions of metrics.py and cgd.py are
    written again as they stand in the code: on whole arrays with any number of batch
    axes, with einsum, broadcasting, transposition, reshaping and one batched call of
    the solver.  TensorProofs.v shows that both descriptions agree.

    Samples are finite here.  An array is a shape (last axis first, as in Shapes.v)
    and a function of the index (last axis first).  Operations along one axis
    (FFT, slices, mean, norm) act on each fibre as in the other files. *)
From Coq Require Import Reals.
From Coquelicot Require Import Complex.
From Verif Require Import Prelude ExtReal Slice Sums Fft Helpers Linalg Cgd Metrics Shapes.
Local Open Scope nat_scope.

Definition idx := list nat.
Record tensor (A : Type) := Tn { tsh : shape; tat : idx -> A }.
Arguments Tn {A}. Arguments tsh {A}. Arguments tat {A}.

Definition bk (l : lib) : backend := match l with Np1 | Np2 => NumPy | Th1 | Th2 => Torch end.

(** Index of a broadcast array: axes of length 1 are repeated, missing axes ignored. *)
Fixpoint bix (s : shape) (i : idx) : idx :=
  match s, i with
  | n :: s', k :: i' => (if Nat.eqb n 1 then 0 else k) :: bix s' i'
  | _, _ => []
  end.
Fixpoint put (k v : nat) (i : idx) : idx :=
  match i, k with
  | [], _ => []
  | _ :: r, O => v :: r
  | a :: r, S k' => a :: put k' v r
  end.
(** np.ndindex. *)
Fixpoint indices (s : shape) : list idx :=
  match s with
  | [] => [[]]
  | n :: b => flat_map (fun m => map (fun k => k :: m) (seq 0 n)) (indices b)
  end.

(** A function of 1-D arrays applied along axis -(k+1).  The functions used give an
    output length that depends on the input length only. *)
Definition fib {A} (k : nat) (t : tensor A) (i : idx) : list A :=
  tab (nth k (tsh t) 0) (fun j => tat t (put k j i)).
Definition along {A B} (k : nat) (da : A) (db : B) (f : list A -> list B) (t : tensor A) : tensor B :=
  Tn (put k (length (f (repeat da (nth k (tsh t) 0)))) (tsh t))
     (fun i => nth (nth k i 0) (f (fib k t i)) db).
Definition alongR := @along R R.
Definition tmap {A B} (f : A -> B) (t : tensor A) : tensor B := Tn (tsh t) (fun i => f (tat t i)).
(** Elementwise operation with broadcasting. *)
Definition tzip {A B D} (l : lib) (f : A -> B -> D) (x : tensor A) (y : tensor B) : res (tensor D) :=
  do s <- bcr l (tsh x) (tsh y);
  Ok (Tn s (fun i => f (tat x (bix (tsh x) i)) (tat y (bix (tsh y) i)))).

(** Length of the common axis of an einsum. *)
Definition bclen (n m : nat) : nat := if Nat.eqb n 1 then m else n.

(** einsum("...cn,...dn->...cd") *)
Definition t_ein_cd (l : lib) (x y : tensor R) : res (tensor R) :=
  do s <- ein_cd l (tsh x) (tsh y);
  Ok (Tn s (fun i => match i with
    | d :: c :: m => Rsum (bclen (nth 0 (tsh x) 0) (nth 0 (tsh y) 0)) (fun n =>
        tat x (bix (tsh x) (n :: c :: m)) * tat y (bix (tsh y) (n :: d :: m)))%R
    | _ => 0%R end)).
(** einsum("...cn,...dn->...cnd") *)
Definition t_ein_cnd (l : lib) (x y : tensor C) : res (tensor C) :=
  do s <- ein_cnd l (tsh x) (tsh y);
  Ok (Tn s (fun i => match i with
    | d :: n :: c :: m => Cmult (tat x (bix (tsh x) (n :: c :: m))) (tat y (bix (tsh y) (n :: d :: m)))
    | _ => RtoC 0 end)).
(** einsum("...cn,...dn->...ncd") *)
Definition t_ein_ncd (l : lib) (x y : tensor C) : res (tensor C) :=
  do s <- ein_ncd l (tsh x) (tsh y);
  Ok (Tn s (fun i => match i with
    | d :: c :: n :: m => Cmult (tat x (bix (tsh x) (n :: c :: m))) (tat y (bix (tsh y) (n :: d :: m)))
    | _ => RtoC 0 end)).
(** einsum("...l,...l->...") *)
Definition t_ein_l (l : lib) (x y : tensor R) : res (tensor R) :=
  do s <- ein_l l (tsh x) (tsh y);
  Ok (Tn s (fun m => Rsum (bclen (nth 0 (tsh x) 0) (nth 0 (tsh y) 0)) (fun n =>
        tat x (bix (tsh x) (n :: m)) * tat y (bix (tsh y) (n :: m)))%R)).
(** einsum("...lc,...lc->...c"); also inner_prod, numpy/cgd.py:287-288 (real arrays). *)
Definition t_ein_lc (l : lib) (x y : tensor R) : res (tensor R) :=
  do s <- ein_lc l (tsh x) (tsh y);
  Ok (Tn s (fun i => match i with
    | c :: m => Rsum (bclen (nth 1 (tsh x) 0) (nth 1 (tsh y) 0)) (fun n =>
        tat x (bix (tsh x) (c :: n :: m)) * tat y (bix (tsh y) (c :: n :: m)))%R
    | _ => 0%R end)).
(** einsum("...rc,...cm->...rm") *)
Definition t_ein_rm (l : lib) (x y : tensor C) : res (tensor C) :=
  do s <- ein_rm l (tsh x) (tsh y);
  Ok (Tn s (fun i => match i with
    | k :: r :: m => Csum (bclen (nth 0 (tsh x) 0) (nth 1 (tsh y) 0)) (fun c =>
        Cmult (tat x (bix (tsh x) (c :: r :: m))) (tat y (bix (tsh y) (k :: c :: m))))
    | _ => RtoC 0 end)).

(** x[..., None], x[..., None, :] and x[..., 0] *)
Definition newlast {A} (x : tensor A) : tensor A := Tn (1 :: tsh x) (fun i => tat x (tl i)).
Definition new2 {A} (x : tensor A) : tensor A :=
  Tn (match tsh x with d :: b => d :: 1 :: b | [] => [1] end)
     (fun i => match i with k :: _ :: m => tat x (k :: m) | _ => tat x [] end).
Definition at0 {A} (x : tensor A) : tensor A := Tn (tl (tsh x)) (fun i => tat x (0 :: i)).
(** swapaxes(-2, -1) and swapaxes(-3, -2) *)
Definition swap12 {A} (x : tensor A) : tensor A :=
  Tn (match tsh x with a :: b :: s => b :: a :: s | s => s end)
     (fun i => match i with a :: b :: m => tat x (b :: a :: m) | _ => tat x i end).
Definition swap23 {A} (x : tensor A) : tensor A :=
  Tn (sh_swap (tsh x))
     (fun i => match i with d :: a :: b :: m => tat x (d :: b :: a :: m) | _ => tat x i end).
(** x.reshape(x.shape[:-3] + (-1,) + x.shape[-1:]): axes -3 and -2 merged, row-major *)
Definition flat23 {A} (x : tensor A) : tensor A :=
  Tn (sh_flat (tsh x))
     (fun i => match i with
       | d :: p :: m => let c := nth 1 (tsh x) 0 in tat x (d :: p mod c :: p / c :: m)
       | _ => tat x i end).
(** x.reshape(x.shape[:-2] + (-1, c) + x.shape[-1:]): the inverse *)
Definition unflat (c : nat) {A} (x : tensor A) : tensor A :=
  Tn (match tsh x with d :: p :: s => d :: c :: p / c :: s | s => s end)
     (fun i => match i with d :: r :: n :: m => tat x (d :: n * c + r :: m) | _ => tat x i end).
(** acf[..., diag, diag] with the indices of the reference channels (numpy),
    torch.diagonal(acf, dim1=-2, dim2=-1) *)
Definition diag12 {A} (nref : nat) (x : tensor A) : tensor A :=
  Tn (match tsh x with _ :: _ :: s => nref :: s | s => s end)
     (fun i => match i with c :: m => tat x (c :: c :: m) | _ => tat x i end).

(** toeplitz, numpy/linalg.py:32-39 *)
Definition t_toeplitz (b : backend) (x : tensor R) : tensor R :=
  Tn (sh_toeplitz (tsh x))
     (fun i => match i with j :: r :: m => ent (toeplitz b (fib 0 x (0 :: m))) r j | _ => 0%R end).
(** block_toeplitz, numpy/linalg.py:42-61: out[..., :, r, :, c] = T, then reshape *)
Definition t_block_toeplitz (l : lib) (x : tensor R) : res (tensor R) :=
  do s <- sh_block_toeplitz l (tsh x);
  let n := nth 2 (tsh x) 0 / 2 in
  let rows := nth 1 (tsh x) 0 in
  let cols := nth 0 (tsh x) 0 in
  Ok (Tn s (fun i => match i with
    | q :: p :: m => ent (bt_block n (fib 2 x (q mod cols :: p mod rows :: 0 :: m))) (p / rows) (q / cols)
    | _ => 0%R end)).

(** linalg.solve: one system per index of the broadcast batch axes. *)
Definition t_solve (l : lib) (a b : tensor R) : res (tensor R) :=
  do s <- sh_solve l (tsh a) (tsh b);
  let n := hd 0 (tsh a) in
  let A := fun m i j => tat a (bix (tsh a) (j :: i :: m)) in
  if vector_rhs l (tsh a) (tsh b) then
    let B := fun m i (_ : nat) => tat b (bix (tsh b) (i :: m)) in
    do _ <- mapM (fun m => solve_cols n 1 (A m) (B m)) (indices (tl s));
    Ok (Tn s (fun ix => match ix with
      | i :: m => match solve_cols n 1 (A m) (B m) with Ok X => X i 0 | Raise _ => 0%R end
      | _ => 0%R end))
  else
    let B := fun m i k => tat b (bix (tsh b) (k :: i :: m)) in
    let nk := hd 0 (tsh b) in
    do _ <- mapM (fun m => solve_cols n nk (A m) (B m)) (indices (tl (tl s)));
    Ok (Tn s (fun ix => match ix with
      | k :: i :: m => match solve_cols n nk (A m) (B m) with Ok X => X i k | Raise _ => 0%R end
      | _ => 0%R end)).
(** linalg.inv *)
Definition t_inv (x : tensor C) : res (tensor C) :=
  let n := hd 0 (tsh x) in
  let A := fun m i j => tat x (j :: i :: m) in
  do _ <- mapM (fun m => cinv n (A m)) (indices (tl (tl (tsh x))));
  Ok (Tn (tsh x) (fun ix => match ix with
    | j :: i :: m => match cinv n (A m) with Ok X => X i j | Raise _ => RtoC 0 end
    | _ => RtoC 0 end)).

(** ** metrics.py *)

(** _remove_mean (if zero_mean) and _normalize along the last axis. *)
Definition prepR (zm : bool) (x : list R) : list R := opt0 (prep zm (map Fin x)).
Definition t_prep (zm : bool) : tensor R -> tensor R := along 0 0%R 0%R (prepR zm).

Definition c0 : C := RtoC 0.
Definition t_rfft (k n : nat) : tensor R -> tensor C := along k 0%R c0 (rfft n).
Definition t_irfft (k n : nat) : tensor C -> tensor R := along k c0 0%R (irfft n).
Definition t_cut (k L : nat) : tensor R -> tensor R := along k 0%R 0%R (cut L).

(** square_cosine_metrics_length_one_filter, numpy/metrics.py:37-78, torch/metrics.py:32-73.
    acm + eye * load_diag is written as one elementwise update. *)
Definition t_eye_load (ld : option R) (x : tensor R) : tensor R :=
  Tn (tsh x) (fun i => match i with
    | d :: c :: _ => (tat x i + match ld with Some v => if Nat.eqb c d then v else 0 | None => 0 end)%R
    | _ => tat x i end).
Definition t_len1 (l : lib) (zm pairwise : bool) (ld : option R) (with_sar : bool) (ref est : tensor R)
  : res (tensor R * option (tensor R)) :=
  let ref := t_prep zm ref in
  let est := t_prep zm est in
  do xcorr <- (if pairwise || with_sar then t_ein_cd l ref est else Ok (Tn [] (fun _ => 0%R)));
  do s <- (if pairwise then Ok xcorr else t_ein_l l ref est);
  let coh_sdr := tmap (fun v => v ^ 2)%R s in
  if with_sar then
    do acm <- t_ein_cd l ref ref;
    do sol <- t_solve l (t_eye_load ld acm) xcorr;
    do coh_sar <- t_ein_lc l xcorr sol;
    if pairwise then
      do u <- tzip l pair coh_sdr (new2 coh_sar);
      Ok (tmap fst u, Some (tmap snd u))
    else Ok (coh_sdr, Some coh_sar)
  else Ok (coh_sdr, None).

(** compute_stats, numpy/metrics.py:81-134, torch/metrics.py:76-130. *)
Definition t_stats (l : lib) (pairwise : bool) (L : nat) (x y : tensor R)
  : res (tensor R * tensor R) :=
  let nf := n_fft (last_axis (tsh x)) (last_axis (tsh y)) in
  let X := t_rfft 0 nf x in
  let Y := t_rfft 0 nf y in
  let X_mag := tmap (fun z : C => RtoC (fst z ^ 2 + snd z ^ 2)) X in
  let acf := t_irfft 0 nf X_mag in
  if pairwise then
    do XY <- t_ein_cnd l (tmap Cconj X) Y;
    let xcorr := t_irfft 1 nf XY in
    Ok (t_cut 0 L acf, t_cut 1 L xcorr)
  else
    do XY <- tzip l Cmult (tmap Cconj X) Y;
    let xcorr := t_irfft 0 nf XY in
    Ok (t_cut 0 L acf, t_cut 0 L xcorr).

(** compute_stats_2, numpy/metrics.py:137-182, torch/metrics.py:133-178. *)
Definition t_stats2 (l : lib) (L : nat) (x y : tensor R) : res (tensor R * tensor R) :=
  let nf := n_fft (last_axis (tsh x)) (last_axis (tsh y)) in
  let X := t_rfft 0 nf x in
  let Y := t_rfft 0 nf y in
  do prod <- t_ein_ncd l X (tmap Cconj X);
  let acf := t_irfft 2 nf prod in
  let acf := along 2 0%R 0%R (fun a => cut L a ++ pyslice (Some (- Z.of_nat L)%Z) None 1 a) acf in
  do XY <- t_ein_ncd l (tmap Cconj X) Y;
  let xcorr := t_irfft 2 nf XY in
  Ok (acf, t_cut 2 L xcorr).

(** ** cgd.py *)

(** SymmetricToeplitzOperator, numpy/cgd.py:119-157, torch/cgd.py:127-165.  The column is
    extended to [circ_col] along the last axis. *)
Definition circ_col (b : backend) (col : list R) : list R :=
  let n_col := length col in
  let pad_len := 2 * n_col - 2 * n_col + 1 in
  col ++ repeat 0%R pad_len ++
  match b with NumPy => pyslice None (Some 0%Z) (-1) col
             | Torch => flip (pyslice (Some 1%Z) None 1 col) end.
Definition t_toep_op (l : lib) (col : tensor R) (lhs : tensor R) : res (tensor R) :=
  let n_col := last_axis (tsh col) in
  let n_fft := 2 * n_col in
  let cc := along 0 0%R 0%R (circ_col (bk l)) col in
  let Cforward := t_rfft 0 (last_axis (tsh cc)) cc in
  if Nat.eqb (length (tsh lhs)) (length (tsh col) + 1) then
    if Nat.eqb (nth 1 (tsh lhs) 0) n_col then
      let Y := t_rfft 1 n_fft lhs in
      do prod <- tzip l Cmult Y (newlast Cforward);
      Ok (along 1 0%R 0%R (pyslice None (Some (Z.of_nat n_col)) 1) (t_irfft 1 n_fft prod))
    else Raise AssertionError
  else Raise ValueError.

(** CirculantPreconditionerOperator, numpy/cgd.py:80-116, torch/cgd.py:83-123. *)
Definition pcol (b : backend) (col : list R) : list R :=
  match sym_precond_col b col with Ok c => c | Raise _ => [] end.
Definition t_circ_precond (l : lib) (toeplitz_col : tensor R) (lhs : tensor R) : res (tensor R) :=
  let col_precond := along 0 0%R 0%R (pcol (bk l)) toeplitz_col in
  let n := last_axis (tsh col_precond) in
  let Ci := tmap (precond_freq (bk l)) (t_rfft 0 n col_precond) in
  if Nat.eqb (length (tsh lhs)) (length (tsh toeplitz_col) + 1) then
    if Nat.eqb (nth 1 (tsh lhs) 0) n then
      do prod <- tzip l Cmult (newlast Ci) (t_rfft 1 n lhs);
      Ok (t_irfft 1 n prod)
    else Raise AssertionError
  else Raise ValueError.

(** conjugate_gradient, numpy/cgd.py:291-363, torch/cgd.py:299-371, without x_true / verbose.
    [A] is the shape of the operator, [app] and [pre] are its and the preconditioner's
    __matmul__. *)
Record t_cg_state := TCG { t_x : tensor R; t_r : tensor R; t_p : tensor R; t_rs : tensor R }.
Definition t_axpy (l : lib) (sg : R) (x a p : tensor R) : res (tensor R) :=
  do ap <- tzip l Rmult (new2 a) p; tzip l (fun u v => u + sg * v)%R x ap.
Definition t_cg_step (l : lib) (app pre : tensor R -> res (tensor R)) (b : tensor R) (epoch : nat)
    (s : t_cg_state) : res t_cg_state :=
  do Ap <- app (t_p s);
  do pAp <- t_ein_lc l (t_p s) Ap;
  do alpha <- tzip l Rdiv (t_rs s) (tmap (fun v => Rmax v cg_eps) pAp);
  do x <- t_axpy l 1 (t_x s) alpha (t_p s);
  do r <- (if Nat.eqb (epoch + 1 mod 5) 0 then do Ax <- app x; tzip l Rminus b Ax
           else t_axpy l (-1) (t_r s) alpha Ap);
  do z <- pre r;
  do rsnew <- t_ein_lc l r z;
  do beta <- tzip l Rdiv rsnew (tmap (fun v => Rmax v cg_eps) (t_rs s));
  do p <- t_axpy l 1 z beta (t_p s);
  Ok (TCG x r p rsnew).
Fixpoint t_cg_loop (l : lib) (app pre : tensor R -> res (tensor R)) (b : tensor R)
    (epochs : list nat) (s : t_cg_state) : res t_cg_state :=
  match epochs with
  | [] => Ok s
  | e :: es => do s' <- t_cg_step l app pre b e s; t_cg_loop l app pre b es s'
  end.
Definition t_cg (l : lib) (A : shape) (app pre : tensor R -> res (tensor R)) (n_iter : nat)
    (b : tensor R) (x0 : option (tensor R)) : res (tensor R) :=
  let add_axis := Nat.eqb (length A) (length (tsh b) + 1) in
  let b := if add_axis then newlast b else b in
  if Nat.eqb (length A) (length (tsh b)) && Nat.eqb (nth 0 A 0) (nth 1 (tsh b) 0) then
    let x := match x0 with Some x => x | None => Tn (tsh b) (fun _ => 0%R) end in
    do Ax <- app x;
    do r <- tzip l Rminus b Ax;
    do z <- pre r;
    do rs <- t_ein_lc l r z;
    do s <- t_cg_loop l app pre b (seq 0 n_iter) (TCG x r z rs);
    Ok (if add_axis then at0 (t_x s) else t_x s)
  else Raise AssertionError.

(** toeplitz_conjugate_gradient, numpy/cgd.py:366-383, torch/cgd.py:374-391. *)
Definition t_toeplitz_cg (l : lib) (acf xcorr : tensor R) (n_iter : nat) : res (tensor R) :=
  t_cg l (sh_toeplitz (tsh acf)) (t_toep_op l acf) (t_circ_precond l acf) n_iter xcorr None.

(** BlockToeplitzOperator, numpy/cgd.py:208-279, torch/cgd.py:216-287. *)
Definition t_block_op (l : lib) (col : tensor R) (lhs : tensor R) : res (tensor R) :=
  let n_col := nth 2 (tsh col) 0 / 2 in
  let n_fft := 2 ^ Nat.log2_up (2 * n_col) in
  let cc := along 2 0%R 0%R (block_circ_col (bk l) n_col n_fft) col in
  let Cforward := t_rfft 2 (nth 2 (tsh cc) 0) cc in
  let cols := nth 0 (tsh col) 0 in
  if Nat.eqb (nth 1 (tsh lhs) 0) (cols * n_col) then
    let Y := t_rfft 2 n_fft (unflat cols lhs) in
    do prod <- t_ein_rm l Cforward Y;
    let y := t_irfft 2 n_fft prod in
    Ok (flat23 (along 2 0%R 0%R (pyslice None (Some (Z.of_nat n_col)) 1) y))
  else Raise AssertionError.

(** BlockCirculantPreconditionerOperator, numpy/cgd.py:160-205, torch/cgd.py:168-213: the
    inverse spectra (computed once) and their application.  The final reshape is written
    with the shape of lhs in the code; here the two axes of y are merged, which is the
    same when the batch axes of lhs are the broadcast ones (always so in
    conjugate_gradient, where b has all the batch axes). *)
Definition npcol (b : backend) (col : list R) : list R :=
  match nonsym_precond_col b col with Ok c => c | Raise _ => [] end.
Definition t_block_inv (l : lib) (col : tensor R) : res (tensor C) :=
  match nonsym_precond_col (bk l) (repeat 0%R (nth 2 (tsh col) 0)) with
  | Raise e => Raise e
  | Ok _ =>
      let cp := along 2 0%R 0%R (npcol (bk l)) col in
      t_inv (t_rfft 2 (nth 2 (tsh cp) 0) cp)
  end.
Definition t_block_precond (l : lib) (n : nat) (Ci : tensor C) (lhs : tensor R) : res (tensor R) :=
  let cols := nth 0 (tsh Ci) 0 in
  if Nat.eqb (nth 1 (tsh lhs) 0) (cols * n) then
    let Y := t_rfft 2 n (unflat cols lhs) in
    do prod <- t_ein_rm l Ci Y;
    Ok (flat23 (t_irfft 2 n prod))
  else Raise AssertionError.

(** block_toeplitz_conjugate_gradient, numpy/cgd.py:386-404, torch/cgd.py:394-411. *)
Definition t_block_cg (l : lib) (acf xcorr : tensor R) (n_iter : nat) (x0 : option (tensor R))
  : res (tensor R) :=
  do Ci <- t_block_inv l acf;
  let n := length (npcol (bk l) (repeat 0%R (nth 2 (tsh acf) 0))) in
  let n_col := nth 2 (tsh acf) 0 / 2 in
  let A := nth 0 (tsh acf) 0 * n_col :: nth 1 (tsh acf) 0 * n_col :: skipn 3 (tsh acf) in
  t_cg l A (t_block_op l acf) (t_block_precond l n Ci) n_iter xcorr x0.

(** ** metrics.py, continued *)
Definition t_db (o : opts) (coh : tensor R) : tensor xr :=
  tmap (fun v => coherence_to_neg_sdr (clamp_db o) (Fin v)) coh.

(** sdr_loss, numpy/metrics.py:185-284, torch/metrics.py:181-280: the coherences. *)
Definition t_sdr_coh (l : lib) (pairwise : bool) (o : opts) (est ref : tensor R) : res (tensor R) :=
  if Nat.eqb (filter_length o) 1 then
    rmap fst (t_len1 l (zero_mean o) pairwise None false ref est)
  else
    let est := t_prep (zero_mean o) est in
    let ref := t_prep (zero_mean o) ref in
    do (acf, xcorr) <- t_stats l pairwise (filter_length o) ref est;
    let acf := along 0 0%R 0%R (add_load (load_diag o)) acf in
    do sol <- match use_cg_iter o with
              | None => t_solve l (t_toeplitz (bk l) acf) xcorr
              | Some n => t_toeplitz_cg l acf xcorr n
              end;
    if pairwise then t_ein_lc l xcorr sol else t_ein_l l xcorr sol.
Definition t_sdr_loss (l : lib) (pairwise : bool) (o : opts) (est ref : tensor R) : res (tensor xr) :=
  do coh <- t_sdr_coh l pairwise o est ref; Ok (t_db o coh).

(** The batch loop of _solve_permutation, numpy/helpers.py:72-112, torch/helpers.py:66-106
    (its use of memory is in Batch.v): the target loss, the other matrices, the
    permutations. *)
Definition t_vec {A} (x : tensor A) (m : idx) : list A :=
  tab (nth 0 (tsh x) 0) (fun j => tat x (j :: m)).
Definition t_mat {A} (x : tensor A) (m : idx) : list (list A) :=
  tab (nth 1 (tsh x) 0) (fun i => t_vec x (i :: m)).
Definition t_permute (b : backend) (sp : scipy_lsa) (loss : tensor xr) (args : list (tensor xr))
  : res (tensor xr * list (tensor xr) * tensor nat) :=
  match tsh loss with
  | ne :: nr :: bs =>
      let s := Nat.min nr ne :: bs in
      let run := fun m => solve_permutation b sp nr ne (mat_of (t_mat loss m))
                           (map (fun a => mat_of (t_mat a m)) args) in
      do _ <- mapM run (indices bs);
      let get := fun m => match run m with Ok r => r | Raise _ => ([], [], []) end in
      Ok (Tn s (fun i => match i with k :: m => nth k (fst (fst (get m))) NaN | [] => NaN end),
          tab (length args) (fun a =>
            Tn s (fun i => match i with k :: m => nth k (nth a (snd (fst (get m))) []) NaN | [] => NaN end)),
          Tn s (fun i => match i with k :: m => nth k (snd (get m)) 0 | [] => 0 end))
  | _ => Raise ValueError
  end.

(** sdr, numpy/metrics.py:369-447, torch/metrics.py:365-443. *)
Definition t_sdr (l : lib) (sp : scipy_lsa) (o : opts) (change_sign : bool) (ref est : tensor R)
  : res (tensor xr * tensor nat) :=
  do neg <- t_sdr_loss l true o est ref;
  do (v, _, perm) <- t_permute (bk l) sp neg [];
  Ok (if change_sign then v else tmap xneg v, perm).

(** square_cosine_metrics, numpy/metrics.py:450-574, torch/metrics.py:446-571. *)
Definition t_load2 (ld : option R) (x : tensor R) : tensor R :=
  Tn (tsh x) (fun i => match i with
    | d :: c :: n :: _ =>
        (tat x i + match ld with Some v => if Nat.eqb c d && Nat.eqb n 0 then v else 0 | None => 0 end)%R
    | _ => tat x i end).
Definition t_cosine (l : lib) (pairwise : bool) (o : opts) (ref est : tensor R)
  : res (tensor R * tensor R) :=
  if Nat.eqb (filter_length o) 1 then
    do (s, a) <- t_len1 l (zero_mean o) pairwise (load_diag o) true ref est;
    match a with Some a => Ok (s, a) | None => Raise TypeError end
  else
    let est := t_prep (zero_mean o) est in
    let ref := t_prep (zero_mean o) ref in
    let nref := nth 1 (tsh ref) 0 in
    do (acf, xcorr) <- t_stats2 l (filter_length o) ref est;
    let acf := t_load2 (load_diag o) acf in
    let acf_sdr := t_cut 0 (filter_length o) (swap12 (diag12 nref acf)) in
    let xcorr_sdr := if pairwise then swap23 xcorr else swap12 (diag12 nref xcorr) in
    do sol <- match use_cg_iter o with
              | None => t_solve l (t_toeplitz (bk l) acf_sdr) xcorr_sdr
              | Some n => t_toeplitz_cg l acf_sdr xcorr_sdr n
              end;
    do coh_sdr <- (if pairwise then t_ein_lc l xcorr_sdr sol else t_ein_l l xcorr_sdr sol);
    let xf := flat23 xcorr in
    do sol2 <- match use_cg_iter o with
               | None => do R_mat <- t_block_toeplitz l acf; t_solve l R_mat xf
               | Some n => t_block_cg l acf xf n (if pairwise then Some (flat23 (swap23 sol)) else None)
               end;
    do coh_sar <- t_ein_lc l xf sol2;
    if pairwise then
      do u <- tzip l pair coh_sdr (new2 coh_sar);
      Ok (tmap fst u, tmap snd u)
    else Ok (coh_sdr, coh_sar).

(** _base_metrics_bss_eval, numpy/metrics.py:577-590, torch/metrics.py:574-587. *)
Definition t_base (l : lib) (o : opts) (coh_sdr coh_sar : tensor R)
  : res (tensor xr * tensor xr * tensor xr) :=
  do coh_sir <- tzip l (fun a b => xdiv (Fin a) (Fin b)) coh_sdr coh_sar;
  Ok (t_db o coh_sdr, tmap (coherence_to_neg_sdr (clamp_db o)) coh_sir, t_db o coh_sar).

(** bss_eval_sources, numpy/metrics.py:593-677, torch/metrics.py:590-674. *)
Definition t_bss (l : lib) (sp : scipy_lsa) (o : opts) (ref est : tensor R)
  : res (tensor xr * tensor xr * tensor xr * tensor nat) :=
  do (s, a) <- t_cosine l true o ref est;
  do (nsdr, nsir, nsar) <- t_base l o s a;
  do (sir, args, perm) <- t_permute (bk l) sp nsir [nsdr; nsar];
  let none := Tn [] (fun _ : idx => NaN) in
  Ok (tmap xneg (nth 0 args none), tmap xneg sir, tmap xneg (nth 1 args none), perm).
Definition t_bss_noperm (l : lib) (o : opts) (ref est : tensor R)
  : res (tensor xr * tensor xr * tensor xr) :=
  if Nat.eqb (nth 1 (tsh ref) 0) (nth 1 (tsh est) 0) then
    do (s, a) <- t_cosine l false o ref est;
    do (nsdr, nsir, nsar) <- t_base l o s a;
    Ok (tmap xneg nsdr, tmap xneg nsir, tmap xneg nsar)
  else Raise AssertionError.

(** Batch item [m] of an array. *)
Definition t_item (t : tensor R) (m : idx) : arr :=
  Arr (nth 0 (tsh t) 0)
      (tab (nth 1 (tsh t) 0) (fun c => tab (nth 0 (tsh t) 0) (fun n => Fin (tat t (n :: c :: m))))).
