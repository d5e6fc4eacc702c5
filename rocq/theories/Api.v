(** * Model of fast_bss_eval/__init__.py, {numpy,torch}/scale_invariant.py and the
      import part of torch/compatibility.py

    Three independent parts: importing the package and choosing the backend, the
    scale-invariant wrappers, and the data types of the results. *)
From Coq Require Import Reals.
From Verif Require Import Prelude ExtReal Helpers Linalg Metrics.
Local Open Scope nat_scope.

(** ** Importing the package *)

(** What is installed.  [e_torch]: None, or Some (version >= 1.8).  The torch version
    string is assumed to be understood by packaging.version.Version. *)
Record env := Env {
  e_numpy : bool; e_scipy : bool; e_torch : option bool;
  e_packaging : bool; e_distutils : bool; e_torch_complex : bool
}.

(** The public functions, fast_bss_eval/__init__.py:307-808. *)
Inductive fn :=
  | F_bss_eval_sources | F_sdr | F_sdr_loss | F_sdr_pit_loss
  | F_si_bss_eval_sources | F_si_sdr | F_si_sdr_loss | F_si_sdr_pit_loss.

(** A try statement whose handler is [except cls: h]: [cls] tells which exceptions the
    handler takes; matching against something that is not a class raises TypeError. *)
Inductive handler := Classes (f : exn -> bool) | NotAClass.
Definition try_except {A} (body : res A) (c : handler) (h : res A) : res A :=
  match body with
  | Ok a => Ok a
  | Raise e =>
      match c with
      | Classes f => if f e then h else Raise e
      | NotAClass => Raise TypeError
      end
  end.
Definition catches_import (e : exn) : bool := match e with ImportError => true | _ => false end.

Definition import_dep (installed : bool) : res unit :=
  if installed then Ok tt else Raise ImportError.

(** torch/compatibility.py:30-46.  The handler of line 32 is a list, not a tuple. *)
Definition import_compatibility (e : env) : res unit :=
  do _ <- try_except (import_dep (e_packaging e)) NotAClass (import_dep (e_distutils e));
  match e_torch e with
  | None => Raise ImportError
  | Some true => Ok tt
  | Some false =>
      try_except (import_dep (e_torch_complex e)) (Classes catches_import) (Raise ImportError)
  end.

(** from . import torch: torch/__init__.py:24-39, torch/metrics.py:21-29, torch/cgd.py:21-26,
    torch/helpers.py:21-27.  metrics imports torch, then cgd, which imports compatibility;
    helpers imports numpy. *)
Definition import_torch_backend (e : env) : res unit :=
  do _ <- import_dep (match e_torch e with None => false | Some _ => true end);
  do _ <- import_compatibility e;
  import_dep (e_numpy e).

(** from . import numpy: numpy/metrics.py:21-34, numpy/helpers.py:21-24. *)
Definition import_numpy_backend (e : env) : res unit :=
  do _ <- import_dep (e_numpy e); import_dep (e_scipy e).

(** The module state after the import: has_torch, and the value of the attribute f of the
    name [torch]: absent, None, or the backend function. *)
Inductive attr := Absent | PyNone | Function.
Record pkg := Pkg { has_torch : bool; torch_attr : fn -> attr }.

(** The dummy class torch, fast_bss_eval/__init__.py:291-294. *)
Definition dummy_attr (f : fn) : attr :=
  match f with
  | F_bss_eval_sources | F_sdr | F_sdr_loss => PyNone
  | _ => Absent
  end.

(** fast_bss_eval/__init__.py:273-297. *)
Definition import_package (e : env) : res pkg :=
  do _ <- import_dep (e_numpy e);
  do p <- try_except
    (do _ <- import_dep (match e_torch e with None => false | Some _ => true end);
     do _ <- import_torch_backend e;
     Ok (Pkg true (fun _ => Function)))
    (Classes catches_import)
    (Ok (Pkg false dummy_attr));
  do _ <- import_numpy_backend e;
  Ok p.

(** ** Choosing the backend *)

(** Kind of an argument; a torch tensor can only exist when torch is installed. *)
Inductive argkind := KTensor | KOther.

(** The first positional argument: est for the loss functions, ref for the others. *)
Definition est_first (f : fn) : bool :=
  match f with
  | F_sdr_loss | F_sdr_pit_loss | F_si_sdr_loss | F_si_sdr_pit_loss => true
  | _ => false
  end.

(** _dispatch_backend, fast_bss_eval/__init__.py:300-304, as called by the public function f:
    the attribute torch.f is read when the arguments of _dispatch_backend are evaluated.
    Calling None raises TypeError. *)
Definition dispatch (p : pkg) (f : fn) (ref est : argkind) : res backend :=
  match torch_attr p f with
  | Absent => Raise AttributeError
  | a =>
      if has_torch p then
        match (if est_first f then est else ref) with
        | KTensor => match a with Function => Ok Torch | _ => Raise TypeError end
        | KOther => Ok NumPy
        end
      else Ok NumPy
  end.

(** Import the package, then call the public function f: the backend that is run. *)
Definition run (e : env) (f : fn) (ref est : argkind) : res backend :=
  do p <- import_package e; dispatch p f ref est.

(** ** The scale-invariant functions *)

(** {numpy,torch}/scale_invariant.py:7-22 (pairwise = False, True). *)
Definition si_sdr_loss (b : backend) (zm : bool) (cd : option R) (est ref : arr) : res (list xr) :=
  sdr_loss b (Opts 1 None zm cd None) est ref.
(** :41-47 *)
Definition pairwise_si_sdr_loss (b : backend) (zm : bool) (cd : option R) (est ref : arr)
  : res (list (list xr)) :=
  pairwise_sdr_loss b (Opts 1 None zm cd None) est ref.
(** :50-115 *)
Definition si_sdr (b : backend) (sp : scipy_lsa) (zm : bool) (cd : option R) (change_sign : bool)
    (ref est : arr) : res (list xr * list nat) :=
  sdr b sp (Opts 1 None zm cd None) change_sign ref est.
(** :24-38 *)
Definition si_sdr_pit_loss (b : backend) (sp : scipy_lsa) (zm : bool) (cd : option R)
    (est ref : arr) : res (list xr) :=
  do r <- sdr b sp (Opts 1 None zm cd None) true ref est; Ok (fst r).
(** :118-174 (compute_permutation = True, False) *)
Definition si_bss_eval_sources (b : backend) (sp : scipy_lsa) (zm : bool) (cd ld : option R)
    (ref est : arr) : res (list xr * list xr * list xr * list nat) :=
  bss_eval_sources b sp (Opts 1 None zm cd ld) ref est.
Definition si_bss_eval_sources_noperm (b : backend) (zm : bool) (cd ld : option R)
    (ref est : arr) : res (list xr * list xr * list xr) :=
  bss_eval_sources_noperm b (Opts 1 None zm cd ld) ref est.

(** ** Data types

    The same programs on data types instead of values.  [I]: any integer type.  Half
    precision and inputs without channel axis are not modelled. *)
Inductive dt := I | F32 | F64.
Inductive cdt := C64 | C128.

(** numpy type promotion of two arrays. *)
Definition promote (a b : dt) : dt :=
  match a, b with
  | F32, F32 => F32
  | I, I => I
  | _, _ => F64
  end.
Definition cpromote (a b : cdt) : cdt := match a, b with C64, C64 => C64 | _, _ => C128 end.
(** integers become float64 in mean, norm, log10, scipy.fft and numpy.linalg *)
Definition to_float (a : dt) : dt := match a with I => F64 | _ => a end.
Definition complex_of (a : dt) : cdt := match a with F32 => C64 | _ => C128 end.
Definition real_of (a : cdt) : dt := match a with C64 => F32 | C128 => F64 end.
(** division of arrays; also an array with a python float *)
Definition divide (a b : dt) : dt := to_float (promote a b).

(** numpy/helpers.py:38-46. *)
Definition np_remove_mean (x : dt) : dt := promote x (to_float x).
Definition np_normalize (x : dt) : dt := divide x (to_float x).
Definition np_prep (zm : bool) (x : dt) : dt :=
  np_normalize (if zm then np_remove_mean x else x).
(** scipy.fft.rfft/irfft keep single precision. *)
Definition sp_rfft (x : dt) : cdt := complex_of x.
(** numpy.fft computes in double precision up to numpy 1; [np2]: numpy >= 2. *)
Definition npfft_rfft (np2 : bool) (x : dt) : cdt := if np2 then complex_of x else C128.
Definition npfft_irfft (np2 : bool) (x : cdt) : dt := if np2 then real_of x else F64.
Definition np_solve (a b : dt) : dt := to_float (promote a b).
(** _coherence_to_neg_sdr, numpy/helpers.py:55-69: only python floats are combined. *)
Definition np_db (x : dt) : dt := to_float x.

(** conjugate_gradient, numpy/cgd.py:291-363: [A], [P] give the data type of A @ x and of
    precond @ x. *)
Record cgst := CgSt { g_x : dt; g_r : dt; g_p : dt; g_rs : dt }.
Definition cg_iter (A P : dt -> dt) (s : cgst) : cgst :=
  let Ap := A (g_p s) in
  let alpha := divide (g_rs s) (promote (g_p s) Ap) in
  let x := promote (g_x s) (promote alpha (g_p s)) in
  let r := promote (g_r s) (promote alpha Ap) in
  let z := P r in
  let rsnew := promote r z in
  let beta := divide rsnew (g_rs s) in
  CgSt x r (promote z (promote beta (g_p s))) rsnew.
Definition np_cg (A P : dt -> dt) (b x0 : dt) (n_iter : nat) : dt :=
  let r := promote b (A x0) in
  let z := P r in
  g_x (Nat.iter n_iter (cg_iter A P) (CgSt x0 r z (promote r z))).
(** The operators, numpy/cgd.py:28-284.  b = np.arange(1, n) / n is double precision. *)
Definition np_precond (np2 : bool) (acf lhs : dt) : dt :=
  npfft_irfft np2 (cpromote (npfft_rfft np2 (promote acf F64)) (npfft_rfft np2 lhs)).
Definition np_toeplitz_op (np2 : bool) (acf lhs : dt) : dt :=
  npfft_irfft np2 (cpromote (npfft_rfft np2 lhs) (npfft_rfft np2 acf)).
(** toeplitz_conjugate_gradient and block_toeplitz_conjugate_gradient: same types. *)
Definition np_tcg (np2 : bool) (acf xcorr x0 : dt) (n_iter : nat) : dt :=
  np_cg (np_toeplitz_op np2 acf) (np_precond np2 acf) xcorr x0 n_iter.

(** Options relevant to the data type. *)
Record dopts := DOpts { d_len1 : bool; d_cg : option nat; d_zm : bool; d_load : bool }.

(** sdr_loss (and hence all SDR-only functions), numpy/metrics.py:185-284. *)
Definition np_sdr_dtype (np2 : bool) (o : dopts) (ref est : dt) : dt :=
  let r := np_prep (d_zm o) ref in
  let e := np_prep (d_zm o) est in
  if d_len1 o then np_db (promote r e)
  else
    let acf := real_of (sp_rfft r) in
    let xcorr := real_of (cpromote (sp_rfft r) (sp_rfft e)) in
    let sol := match d_cg o with
               | None => np_solve acf xcorr
               | Some k => np_tcg np2 acf xcorr xcorr k
               end in
    np_db (promote xcorr sol).

(** bss_eval_sources, numpy/metrics.py:450-677: types of (sdr, sir, sar).  The
    permutation solver copies into arrays of the same type. *)
Definition np_bss_dtype (np2 : bool) (pairwise : bool) (o : dopts) (ref est : dt) : dt * dt * dt :=
  let r := np_prep (d_zm o) ref in
  let e := np_prep (d_zm o) est in
  let '(cs, ca) :=
    if d_len1 o then
      let xcorr := promote r e in
      let acm := promote r r in
      let acm := if d_load o then promote acm F64 else acm in
      (xcorr, promote xcorr (np_solve acm xcorr))
    else
      let acf := real_of (sp_rfft r) in
      let xcorr := real_of (cpromote (sp_rfft r) (sp_rfft e)) in
      match d_cg o with
      | None => (promote xcorr (np_solve acf xcorr), promote xcorr (np_solve acf xcorr))
      | Some k =>
          let sol := np_tcg np2 acf xcorr xcorr k in
          (promote xcorr sol,
           promote xcorr (np_tcg np2 acf xcorr (if pairwise then sol else xcorr) k))
      end in
  (np_db cs, np_db (divide cs ca), np_db ca).

(** The torch backend.  [dd]: torch.get_default_dtype() (float32 unless changed).  mean and
    norm of an integer tensor raise; einsum and linalg.solve need equal types. *)
Definition t_float (x : dt) : res dt := match x with I => Raise RuntimeError | _ => Ok x end.
Definition dt_eqb (a b : dt) : bool :=
  match a, b with I, I | F32, F32 | F64, F64 => true | _, _ => false end.
Definition t_same (a b : dt) : res dt := if dt_eqb a b then Ok a else Raise RuntimeError.
Definition t_csame (a b : cdt) : res cdt :=
  match a, b with C64, C64 => Ok C64 | C128, C128 => Ok C128 | _, _ => Raise RuntimeError end.

(** torch/helpers.py:30-38: mean, norm. *)
Definition t_prep (zm : bool) (x : dt) : res dt :=
  do x1 <- (if zm then do m <- t_float x; Ok (promote x m) else Ok x);
  do n <- t_float x1; Ok (divide x1 n).
(** torch/cgd.py:29-287; b = torch.arange(1, n) / float(n) has the default type. *)
Definition t_precond (block : bool) (dd acf lhs : dt) : res dt :=
  let C := complex_of (promote acf dd) in
  let Y := complex_of lhs in
  if block then do c <- t_csame C Y; Ok (real_of c) else Ok (real_of (cpromote C Y)).
Definition t_toeplitz_op (block : bool) (acf lhs : dt) : res dt :=
  let C := complex_of acf in
  let Y := complex_of lhs in
  if block then do c <- t_csame C Y; Ok (real_of c) else Ok (real_of (cpromote C Y)).
Definition t_cg_iter (A P : dt -> res dt) (s : cgst) : res cgst :=
  do Ap <- A (g_p s);
  do pAp <- t_same (g_p s) Ap;
  let alpha := divide (g_rs s) pAp in
  let x := promote (g_x s) (promote alpha (g_p s)) in
  let r := promote (g_r s) (promote alpha Ap) in
  do z <- P r;
  do rsnew <- t_same r z;
  let beta := divide rsnew (g_rs s) in
  Ok (CgSt x r (promote z (promote beta (g_p s))) rsnew).
Definition t_cg (A P : dt -> res dt) (b x0 : dt) (n_iter : nat) : res dt :=
  do Ax <- A x0;
  let r := promote b Ax in
  do z <- P r;
  do rs <- t_same r z;
  do s <- Nat.iter n_iter (fun s => do s' <- s; t_cg_iter A P s') (Ok (CgSt x0 r z rs));
  Ok (g_x s).
Definition t_tcg (block : bool) (dd acf xcorr x0 : dt) (n_iter : nat) : res dt :=
  t_cg (t_toeplitz_op block acf) (t_precond block dd acf) xcorr x0 n_iter.

(** sdr_loss, torch/metrics.py:181-280. *)
Definition t_sdr_dtype (dd : dt) (pairwise : bool) (o : dopts) (ref est : dt) : res dt :=
  do r <- t_prep (d_zm o) ref;
  do e <- t_prep (d_zm o) est;
  if d_len1 o then t_same r e
  else
    let acf := r in
    do XY <- (if pairwise then t_csame (complex_of r) (complex_of e)
              else Ok (cpromote (complex_of r) (complex_of e)));
    let xcorr := real_of XY in
    do sol <- (match d_cg o with
               | None => t_same acf xcorr
               | Some k => t_tcg false dd acf xcorr xcorr k
               end);
    t_same xcorr sol.

(** bss_eval_sources, torch/metrics.py:446-674: types of (sdr, sir, sar). *)
Definition t_bss_dtype (dd : dt) (pairwise : bool) (o : dopts) (ref est : dt)
  : res (dt * dt * dt) :=
  do r <- t_prep (d_zm o) ref;
  do e <- t_prep (d_zm o) est;
  do c <-
    (if d_len1 o then
      do xcorr <- t_same r e;
      let acm := if d_load o then promote r dd else r in
      do sol <- t_same acm xcorr;
      do sar <- t_same xcorr sol;
      Ok (xcorr, sar)
    else
      let acf := r in
      do XY <- t_csame (complex_of r) (complex_of e);
      let xcorr := real_of XY in
      match d_cg o with
      | None =>
          do sol <- t_same acf xcorr;
          do cs <- t_same xcorr sol;
          Ok (cs, cs)
      | Some k =>
          do sol <- t_tcg false dd acf xcorr xcorr k;
          do cs <- t_same xcorr sol;
          do sol2 <- t_tcg true dd acf xcorr (if pairwise then sol else xcorr) k;
          do ca <- t_same xcorr sol2;
          Ok (cs, ca)
      end);
  let '(cs, ca) := c in
  Ok (cs, divide cs ca, ca).
