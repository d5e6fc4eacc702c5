(** * Shapes: the same programs run on array shapes only, with any number of batch axes

    The functions of Metrics.v work on one item of a batch.  Here the metrics functions
    are run on shapes: every array is replaced by its shape, every library call by its
    shape rule, including broadcasting between batch axes.  A shape is a list of axis
    lengths with the LAST axis first, as the code only addresses axes from the end
    (axis -1 is the head, axis -2 the next one, ...).

    What the libraries do is part of the model: broadcasting, einsum with an ellipsis,
    slicing, irfft with a given n, and the rules by which [solve] decides whether its
    right-hand side is a vector or a matrix, which differ between library versions. *)
From Verif Require Import Prelude Helpers Linalg Metrics.
Local Open Scope nat_scope.

Definition shape := list nat.

(** The library versions that differ: numpy 1.x, numpy 2.x, torch < 1.8 with the
    wrappers of torch/compatibility.py:48-136, torch >= 1.8. *)
Inductive lib := Np1 | Np2 | Th1 | Th2.
Definition lib_exn (l : lib) : exn :=
  match l with Np1 | Np2 => ValueError | Th1 | Th2 => RuntimeError end.

(** Broadcasting of two axis lengths and of two shapes. *)
Definition bc1 (a b : nat) : option nat :=
  if Nat.eqb a b then Some a else if Nat.eqb a 1 then Some b
  else if Nat.eqb b 1 then Some a else None.
Fixpoint bc (s t : shape) : option shape :=
  match s, t with
  | [], _ => Some t
  | _, [] => Some s
  | a :: s', b :: t' =>
      match bc1 a b, bc s' t' with
      | Some c, Some u => Some (c :: u)
      | _, _ => None
      end
  end.

Definition of_opt {A} (l : lib) (o : option A) : res A :=
  match o with Some a => Ok a | None => Raise (lib_exn l) end.

(** einsum("...cn,...dn->...cd", x, y), numpy/metrics.py:57,66. *)
Definition ein_cd (l : lib) (x y : shape) : res shape :=
  match x, y with
  | n :: c :: b, n' :: d :: b' =>
      do _ <- of_opt l (bc1 n n'); do e <- of_opt l (bc b b'); Ok (d :: c :: e)
  | _, _ => Raise (lib_exn l)
  end.

(** einsum("...cn,...dn->...cnd", x, y), numpy/metrics.py:127. *)
Definition ein_cnd (l : lib) (x y : shape) : res shape :=
  match x, y with
  | n :: c :: b, n' :: d :: b' =>
      do m <- of_opt l (bc1 n n'); do e <- of_opt l (bc b b'); Ok (d :: m :: c :: e)
  | _, _ => Raise (lib_exn l)
  end.

(** einsum("...cn,...dn->...ncd", x, y), numpy/metrics.py:173,178. *)
Definition ein_ncd (l : lib) (x y : shape) : res shape :=
  match x, y with
  | n :: c :: b, n' :: d :: b' =>
      do m <- of_opt l (bc1 n n'); do e <- of_opt l (bc b b'); Ok (d :: c :: m :: e)
  | _, _ => Raise (lib_exn l)
  end.

(** einsum("...l,...l->...", x, y), numpy/metrics.py:62,279. *)
Definition ein_l (l : lib) (x y : shape) : res shape :=
  match x, y with
  | n :: b, n' :: b' => do _ <- of_opt l (bc1 n n'); of_opt l (bc b b')
  | _, _ => Raise (lib_exn l)
  end.

(** einsum("...lc,...lc->...c", x, y), numpy/metrics.py:70,277,569 and inner_prod,
    numpy/cgd.py:287-288. *)
Definition ein_lc (l : lib) (x y : shape) : res shape :=
  match x, y with
  | c :: n :: b, c' :: n' :: b' =>
      do d <- of_opt l (bc1 c c'); do _ <- of_opt l (bc1 n n');
      do e <- of_opt l (bc b b'); Ok (d :: e)
  | _, _ => Raise (lib_exn l)
  end.

(** einsum("...rc,...cm->...rm", x, y), numpy/cgd.py:201,270. *)
Definition ein_rm (l : lib) (x y : shape) : res shape :=
  match x, y with
  | c :: r :: b, m :: c' :: b' =>
      do _ <- of_opt l (bc1 c c'); do e <- of_opt l (bc b b'); Ok (m :: r :: e)
  | _, _ => Raise (lib_exn l)
  end.

(** np.linalg.solve / torch solve.  The core calls: a is (..., m, m), b is (..., m) or
    (..., m, k), the batch axes broadcast. *)
Definition solve_vec (l : lib) (a b : shape) : res shape :=
  match a, b with
  | n :: m :: ba, m' :: bb =>
      if Nat.eqb n m && Nat.eqb m m' then do e <- of_opt l (bc ba bb); Ok (m :: e)
      else Raise (lib_exn l)
  | _, _ => Raise (lib_exn l)
  end.
Definition solve_mat (l : lib) (a b : shape) : res shape :=
  match a, b with
  | n :: m :: ba, k :: m' :: bb =>
      if Nat.eqb n m && Nat.eqb m m' then do e <- of_opt l (bc ba bb); Ok (k :: m :: e)
      else Raise (lib_exn l)
  | _, _ => Raise (lib_exn l)
  end.

Definition shape_eqb (s t : shape) : bool := if list_eq_dec Nat.eq_dec s t then true else false.

(** Vector or matrix right-hand side.  numpy 1.x: a vector iff b.ndim == a.ndim - 1.
    numpy 2.x: iff b.ndim == 1.  torch < 1.8: compatibility.py:100-111, as numpy 1.x.
    torch >= 1.8: iff b.ndim == 1 or b.shape == a.shape[:-1]. *)
Definition vector_rhs (l : lib) (a b : shape) : bool :=
  match l with
  | Np1 | Th1 => Nat.eqb (length b + 1) (length a)
  | Np2 => Nat.eqb (length b) 1
  | Th2 => Nat.eqb (length b) 1 || shape_eqb b (tl a)
  end.
Definition sh_solve (l : lib) (a b : shape) : res shape :=
  if vector_rhs l a b then solve_vec l a b else solve_mat l a b.

(** Models toeplitz, numpy/linalg.py:32-39. *)
Definition sh_toeplitz (x : shape) : shape :=
  match x with n :: b => n :: n :: b | [] => [] end.

(** Models block_toeplitz, numpy/linalg.py:42-61: the slice [-n + 1:] is the whole axis
    when n = 1, and the assignment of the block then fails. *)
Definition sh_block_toeplitz (l : lib) (x : shape) : res shape :=
  match x with
  | c :: r :: t :: b =>
      let n := t / 2 in
      if Nat.eqb n 1 then Raise (lib_exn l) else Ok (n * c :: n * r :: b)
  | _ => Raise (lib_exn l)
  end.

(** Models square_cosine_metrics_length_one_filter, numpy/metrics.py:37-78,
    torch/metrics.py:32-73.  First component: coh_sdr; second: coh_sar. *)
Definition sh_len1 (l : lib) (pairwise : bool) (with_sar : bool) (ref est : shape) :
  res (shape * option shape) :=
  do x <- (if pairwise || with_sar then ein_cd l ref est else Ok []);
  do s <- (if pairwise then Ok x else ein_l l ref est);
  if with_sar then
    do acm <- ein_cd l ref ref;
    do sol <- sh_solve l acm x;
    do sar <- ein_lc l x sol;
    if pairwise then
      do u <- of_opt l (bc s (match sar with d :: b => d :: 1 :: b | [] => [1] end));
      Ok (u, Some u)
    else Ok (s, Some sar)
  else Ok (s, None).

Definition last_axis (x : shape) : nat := hd 0 x.
Definition set_last (x : shape) (n : nat) : shape :=
  match x with _ :: b => n :: b | [] => [] end.

(** Models compute_stats, numpy/metrics.py:81-134, torch/metrics.py:76-130. *)
Definition sh_stats (l : lib) (pairwise : bool) (L : nat) (x y : shape) : res (shape * shape) :=
  let nf := n_fft (last_axis x) (last_axis y) in
  let X := set_last x (nf / 2 + 1) in
  let Y := set_last y (nf / 2 + 1) in
  let acf := set_last x (Nat.min L nf) in
  if pairwise then
    do XY <- ein_cnd l X Y;
    match XY with
    | d :: _ :: r => Ok (acf, d :: Nat.min L nf :: r)
    | _ => Raise (lib_exn l)
    end
  else
    do XY <- of_opt l (bc X Y);
    Ok (acf, set_last XY (Nat.min L nf)).

(** Models conjugate_gradient, numpy/cgd.py:291-362, torch/cgd.py:299-371, up to shapes.
    [A] is the shape attribute of the operator and [app] the shape of [A @ _]; [pre] that
    of the preconditioner.  The shapes of r, z, p and x are carried through the loop. *)
Definition bcr (l : lib) (s t : shape) : res shape := of_opt l (bc s t).
Definition ein_scale (l : lib) (alpha p : shape) : res shape :=
  bcr l (match alpha with d :: b => d :: 1 :: b | [] => [1] end) p.

Fixpoint sh_cg_loop (l : lib) (app pre : shape -> res shape) (n : nat)
    (x r p rs : shape) : res shape :=
  match n with
  | 0 => Ok x
  | S n' =>
      do Ap <- app p;
      do pAp <- ein_lc l p Ap;
      do alpha <- bcr l rs pAp;
      do dx <- ein_scale l alpha p;
      do x' <- bcr l x dx;
      do dr <- ein_scale l alpha Ap;
      do r' <- bcr l r dr;
      do z <- pre r';
      do rs' <- ein_lc l r' z;
      do beta <- bcr l rs' rs;
      do dp <- ein_scale l beta p;
      do p' <- bcr l z dp;
      sh_cg_loop l app pre n' x' r' p' rs'
  end.

Definition sh_cg (l : lib) (A : shape) (app pre : shape -> res shape) (n : nat)
    (b : shape) (x0 : option shape) : res shape :=
  let add_axis := Nat.eqb (length A) (length b + 1) in
  let b := if add_axis then 1 :: b else b in
  match A, b with
  | a1 :: _, _ :: b2 :: _ =>
      if Nat.eqb (length A) (length b) && Nat.eqb a1 b2 then
        let x := match x0 with Some x => x | None => b end in
        do Ax <- app x;
        do r <- bcr l b Ax;
        do z <- pre r;
        do rs <- ein_lc l r z;
        do x' <- sh_cg_loop l app pre n x r z rs;
        Ok (if add_axis then tl x' else x')
      else Raise AssertionError
  | _, _ => Raise AssertionError
  end.

(** Models SymmetricToeplitzOperator.__matmul__, numpy/cgd.py:146-157, and
    CirculantPreconditionerOperator.__matmul__, numpy/cgd.py:102-116. *)
Definition sh_toep_apply (l : lib) (acf : shape) (x : shape) : res shape :=
  match acf, x with
  | n :: ba, k :: m :: bx =>
      if Nat.eqb (length x) (length acf + 1) then
        if Nat.eqb m n then do e <- of_opt l (bc bx ba); Ok (k :: n :: e)
        else Raise AssertionError
      else Raise ValueError
  | _, _ => Raise ValueError
  end.

(** Models toeplitz_conjugate_gradient, numpy/cgd.py:366-383. *)
Definition sh_toeplitz_cg (l : lib) (acf b : shape) (n : nat) : res shape :=
  sh_cg l (sh_toeplitz acf) (sh_toep_apply l acf) (sh_toep_apply l acf) n b None.

(** Models BlockToeplitzOperator.__matmul__, numpy/cgd.py:262-279, and
    BlockCirculantPreconditionerOperator.__matmul__, numpy/cgd.py:192-205, for an
    operator built from [c :: r :: t :: ba] with n = t / 2. *)
Definition sh_block_apply (l : lib) (acf : shape) (x : shape) : res shape :=
  match acf, x with
  | c :: r :: t :: ba, k :: m :: bx =>
      let n := t / 2 in
      if Nat.eqb m (c * n) then
        do prod <- ein_rm l (c :: r :: 1 :: ba) (k :: c :: 1 :: bx);
        match prod with
        | k' :: r' :: _ :: e => Ok (k' :: n * r' :: e)
        | _ => Raise (lib_exn l)
        end
      else Raise AssertionError
  | _, _ => Raise (lib_exn l)
  end.

(** Models block_toeplitz_conjugate_gradient, numpy/cgd.py:386-404.  In torch the slice
    [-n + 1:] of torch/cgd.py:71 is the whole axis for n = 1. *)
Definition sh_block_cg (l : lib) (acf b : shape) (n : nat) (x0 : option shape) : res shape :=
  match acf with
  | c :: r :: t :: ba =>
      match l, t / 2 with
      | Th1, 1 | Th2, 1 => Raise (lib_exn l)
      | _, _ =>
          sh_cg l (c * (t / 2) :: r * (t / 2) :: ba)
                (sh_block_apply l acf) (sh_block_apply l acf) n b x0
      end
  | _ => Raise (lib_exn l)
  end.

(** Models sdr_loss, numpy/metrics.py:185-284, torch/metrics.py:181-280. *)
Definition sh_sdr_loss (l : lib) (pairwise : bool) (L : nat) (cg : option nat)
    (est ref : shape) : res shape :=
  if Nat.eqb L 1 then rmap fst (sh_len1 l pairwise false ref est)
  else
    do (acf, x) <- sh_stats l pairwise L ref est;
    do sol <- match cg with
              | None => sh_solve l (sh_toeplitz acf) x
              | Some n => sh_toeplitz_cg l acf x n
              end;
    if pairwise then ein_lc l x sol else ein_l l x sol.

(** Models _solve_permutation, numpy/helpers.py:72-116, up to shapes. *)
Definition sh_permute (l : lib) (loss : shape) : res shape :=
  match loss with d :: c :: b => Ok (Nat.min c d :: b) | _ => Raise ValueError end.

(** Models sdr, numpy/metrics.py:369-447, torch/metrics.py:365-443.  The shape of the
    returned permutation is the same. *)
Definition sh_sdr (l : lib) (L : nat) (cg : option nat) (ref est : shape) : res shape :=
  do m <- sh_sdr_loss l true L cg est ref; sh_permute l m.

(** Models compute_stats_2, numpy/metrics.py:137-182, torch/metrics.py:133-178. *)
Definition sh_stats2 (l : lib) (L : nat) (x y : shape) : res (shape * shape) :=
  let nf := n_fft (last_axis x) (last_axis y) in
  let X := set_last x (nf / 2 + 1) in
  let Y := set_last y (nf / 2 + 1) in
  do XX <- ein_ncd l X X;
  do XY <- ein_ncd l X Y;
  match XX, XY with
  | c' :: c :: _ :: b, d :: c2 :: _ :: e =>
      Ok (c' :: c :: (Nat.min L nf + Nat.min L nf) :: b, d :: c2 :: Nat.min L nf :: e)
  | _, _ => Raise (lib_exn l)
  end.

(** x[..., :, diag, diag].swapaxes(-2, -1), numpy/metrics.py:539, with the indices of the
    reference channels, and torch.diagonal(x, dim1=-2, dim2=-1).transpose(-2, -1),
    torch/metrics.py:534. *)
Definition sh_diag (l : lib) (nref : nat) (x : shape) : res shape :=
  match x with
  | d :: c :: n :: b =>
      match l with
      | Np1 | Np2 => if Nat.leb nref (Nat.min c d) then Ok (n :: nref :: b) else Raise IndexError
      | Th1 | Th2 => Ok (n :: Nat.min c d :: b)
      end
  | _ => Raise (lib_exn l)
  end.

Definition sh_flat (x : shape) : shape :=
  match x with d :: c :: n :: b => d :: n * c :: b | _ => x end.
Definition sh_swap (x : shape) : shape :=
  match x with d :: c :: n :: b => d :: n :: c :: b | _ => x end.

(** Models square_cosine_metrics, numpy/metrics.py:450-574, torch/metrics.py:446-571. *)
Definition sh_cosine (l : lib) (pairwise : bool) (L : nat) (cg : option nat)
    (ref est : shape) : res (shape * shape) :=
  if Nat.eqb L 1 then
    rmap (fun p => (fst p, match snd p with Some s => s | None => [] end))
         (sh_len1 l pairwise true ref est)
  else
    do (acf, x) <- sh_stats2 l L ref est;
    match acf, ref with
    | c' :: c :: t :: b, _ :: nref :: _ =>
        let acf_sdr := Nat.min L t :: Nat.min c c' :: b in
        do x_sdr <- (if pairwise then Ok (sh_swap x) else sh_diag l nref x);
        do sol <- match cg with
                  | None => sh_solve l (sh_toeplitz acf_sdr) x_sdr
                  | Some n => sh_toeplitz_cg l acf_sdr x_sdr n
                  end;
        do coh_sdr <- (if pairwise then ein_lc l x_sdr sol else ein_l l x_sdr sol);
        let xf := sh_flat x in
        do sol2 <- match cg with
                   | None => do R <- sh_block_toeplitz l acf; sh_solve l R xf
                   | Some n =>
                       sh_block_cg l acf xf n (if pairwise then Some (sh_flat (sh_swap sol)) else None)
                   end;
        do coh_sar <- ein_lc l xf sol2;
        if pairwise then
          do u <- of_opt l (bc coh_sdr (match coh_sar with d :: b => d :: 1 :: b | [] => [1] end));
          Ok (u, u)
        else Ok (coh_sdr, coh_sar)
    | _, _ => Raise (lib_exn l)
    end.

(** Models bss_eval_sources, numpy/metrics.py:593-677, torch/metrics.py:590-674.  The
    three outputs have the shape of coh_sdr, of coh_sdr / coh_sar and of coh_sar. *)
Definition sh_bss (l : lib) (compute_permutation : bool) (L : nat) (cg : option nat)
    (ref est : shape) : res (shape * shape * shape) :=
  match ref, est with
  | _ :: c :: _, _ :: d :: _ =>
      if negb compute_permutation && negb (Nat.eqb c d) then Raise AssertionError
      else
        do (s, a) <- sh_cosine l compute_permutation L cg ref est;
        do i <- of_opt l (bc s a);
        if compute_permutation then
          do s' <- sh_permute l s; do i' <- sh_permute l i; do a' <- sh_permute l a;
          Ok (s', i', a')
        else Ok (s, i, a)
  | _, _ => Raise (if compute_permutation then lib_exn l else IndexError)
  end.
