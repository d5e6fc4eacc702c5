(** * Strided arrays in memory

    Model of hankel_view, toeplitz and block_toeplitz (numpy/linalg.py:24-61, torch/linalg.py:24-62) and
    of the two in-place additions of load_diag (numpy/metrics.py:264, 527-529, torch/metrics.py:260,
    520-524) on a memory of buffers: an array is a view of a buffer, with an offset and a stride for
    each axis, and as_strided makes a view without looking at the buffer.  The list model of the same
    functions is in Linalg.v and Metrics.v.

    Axes are listed last axis first, as in Shapes.v.  An access outside a buffer is undefined
    behaviour in numpy; the model raises IndexError, and the theorems show that it does not happen.
    Simplified: strides count elements, not bytes; real entries; the final reshape of block_toeplitz
    always copies (in the code it is a view when the strides allow). *)
From Coq Require Import Reals.
From Verif Require Import Prelude Slice Helpers Linalg.
Local Open Scope nat_scope.

Record smem := SMem { sm_next : nat; sm_buf : nat -> list R }.
Record sview := SView { sv_buf : nat; sv_off : Z; sv_axes : list (nat * Z) }.
Definition sv_shape (v : sview) : list nat := map fst (sv_axes v).

Fixpoint addr (axes : list (nat * Z)) (k : list nat) : Z :=
  match axes, k with
  | (_, s) :: ax, i :: k' => (Z.of_nat i * s + addr ax k')%Z
  | _, _ => 0%Z
  end.
Definition address (v : sview) (k : list nat) : Z := (sv_off v + addr (sv_axes v) k)%Z.

(** The indices of an array of the given shape. *)
Definition valid (shape k : list nat) : Prop := Forall2 lt k shape.
Fixpoint all_idx (shape : list nat) : list (list nat) :=
  match shape with
  | [] => [[]]
  | n :: sh => flat_map (fun k => map (fun i => i :: k) (seq 0 n)) (all_idx sh)
  end.

(** Reading and writing one entry. *)
Definition in_buf (m : smem) (a : nat) (p : Z) : bool :=
  (0 <=? p)%Z && (p <? Z.of_nat (length (sm_buf m a)))%Z.
Definition value (m : smem) (v : sview) (k : list nat) : R :=
  nth (Z.to_nat (address v k)) (sm_buf m (sv_buf v)) 0%R.
Definition load (m : smem) (v : sview) (k : list nat) : res R :=
  if in_buf m (sv_buf v) (address v k) then Ok (value m v k) else Raise IndexError.
Definition store (m : smem) (v : sview) (k : list nat) (r : R) : res smem :=
  if in_buf m (sv_buf v) (address v k) then
    Ok (SMem (sm_next m) (upd (sm_buf m) (sv_buf v)
      (tab (length (sm_buf m (sv_buf v))) (fun p =>
         if Nat.eqb p (Z.to_nat (address v k)) then r else nth p (sm_buf m (sv_buf v)) 0%R))))
  else Raise IndexError.

Definition content := list (list nat * R).
Definition read_all (m : smem) (v : sview) : res content :=
  mapM (fun k => do r <- load m v k; Ok (k, r)) (all_idx (sv_shape v)).
Fixpoint write_all (m : smem) (v : sview) (l : content) : res smem :=
  match l with
  | [] => Ok m
  | (k, r) :: l' => do m' <- store m v k r; write_all m' v l'
  end.

(** A new array.  The library chooses the size of the buffer, the offset and the strides, for each
    allocation anew ([lays] is indexed by the buffer). *)
Definition layout := list nat -> nat * Z * list Z.
Definition alloc (lays : nat -> layout) (m : smem) (shape : list nat) (l : content) : sview * smem :=
  let '(size, off, strides) := lays (sm_next m) shape in
  let v := SView (sm_next m) off (combine shape strides) in
  (v, SMem (S (sm_next m)) (upd (sm_buf m) (sm_next m)
        (tab size (fun p =>
           match find (fun kr => Z.eqb (address v (fst kr)) (Z.of_nat p)) l with
           | Some kr => snd kr | None => 0%R end)))).

(** ** Views *)

Fixpoint on_axis (p : nat) (f : nat * Z -> nat * Z) (axes : list (nat * Z)) : list (nat * Z) :=
  match axes, p with
  | a :: ax, 0 => f a :: ax
  | a :: ax, S p' => a :: on_axis p' f ax
  | [], _ => []
  end.
(** First index and number of indices of [start:stop:step] (as in [pyslice], Slice.v). *)
Definition slice_range (len : Z) (start stop : option Z) (step : Z) : Z * Z :=
  if (0 <? step)%Z then
    let s := match start with Some a => clip len 0 len a | None => 0%Z end in
    let e := match stop with Some a => clip len 0 len a | None => len end in
    (s, if (s <? e)%Z then ((e - s - 1) / step + 1)%Z else 0%Z)
  else
    let s := match start with Some a => clip len (-1) (len - 1) a | None => (len - 1)%Z end in
    let e := match stop with Some a => clip len (-1) (len - 1) a | None => (-1)%Z end in
    (s, if (e <? s)%Z then ((s - e - 1) / (- step) + 1)%Z else 0%Z).
Definition axis (p : nat) (v : sview) : nat * Z := nth p (sv_axes v) (0, 0%Z).
(** v[start:stop:step] on one axis. *)
Definition slice_view (p : nat) (start stop : option Z) (step : Z) (v : sview) : sview :=
  let (s, cnt) := slice_range (Z.of_nat (fst (axis p v))) start stop step in
  SView (sv_buf v) (sv_off v + s * snd (axis p v))
        (on_axis p (fun a => (Z.to_nat cnt, (step * snd a)%Z)) (sv_axes v)).
Fixpoint drop_axis (p : nat) (axes : list (nat * Z)) : list (nat * Z) :=
  match axes, p with
  | _ :: ax, 0 => ax
  | a :: ax, S p' => a :: drop_axis p' ax
  | [], _ => []
  end.
(** v[i] on one axis. *)
Definition select (p i : nat) (v : sview) : res sview :=
  if Nat.ltb i (fst (axis p v))
  then Ok (SView (sv_buf v) (sv_off v + Z.of_nat i * snd (axis p v)) (drop_axis p (sv_axes v)))
  else Raise IndexError.
(** torch.diagonal(v, dim1=-2, dim2=-1). *)
Definition diagonal (v : sview) : res sview :=
  match sv_axes v with
  | (c, sc) :: (r, sr) :: ax =>
      Ok (SView (sv_buf v) (sv_off v) ((Nat.min c r, (sc + sr)%Z) :: ax))
  | _ => Raise IndexError
  end.

(** ** Copies *)

Definition set_idx (p : nat) (f : nat -> nat) (k : list nat) : list nat :=
  firstn p k ++ match skipn p k with i :: r => f i :: r | [] => [] end.
(** v.flip(dims) in torch copies. *)
Definition flip_copy (lays : nat -> layout) (m : smem) (p : nat) (v : sview) : res (sview * smem) :=
  do l <- read_all m v;
  Ok (alloc lays m (sv_shape v)
        (map (fun kr => (set_idx p (fun i => fst (axis p v) - 1 - i) (fst kr), snd kr)) l)).
(** concatenate((v, w), axis=-1). *)
Definition cat (b : backend) (lays : nat -> layout) (m : smem) (v w : sview) : res (sview * smem) :=
  match sv_shape v, sv_shape w with
  | n1 :: sh, n2 :: sh' =>
      if list_eq_dec Nat.eq_dec sh sh' then
        do l1 <- read_all m v;
        do l2 <- read_all m w;
        Ok (alloc lays m (n1 + n2 :: sh)
              (l1 ++ map (fun kr => (set_idx 0 (fun j => n1 + j) (fst kr), snd kr)) l2))
      else Raise (shape_exn b)
  | _, _ => Raise (shape_exn b)
  end.
(** dst[...] = src *)
Definition assign (b : backend) (m : smem) (dst src : sview) : res smem :=
  if list_eq_dec Nat.eq_dec (sv_shape dst) (sv_shape src) then
    do l <- read_all m src; write_all m dst l
  else Raise (shape_exn b).
(** v += d *)
Definition iadd (m : smem) (v : sview) (d : R) : res smem :=
  do l <- read_all m v;
  write_all m v (map (fun kr => (fst kr, (snd kr + d)%R)) l).

(** ** linalg.py *)

(** torch checks as_strided against the size of the storage; numpy does not. *)
Definition in_storage (m : smem) (v : sview) : bool :=
  forallb (fun a : nat * Z => (0 <=? snd a)%Z) (sv_axes v) &&
  (existsb (fun a : nat * Z => Nat.eqb (fst a) 0) (sv_axes v) ||
   (address v (map (fun a : nat * Z => (fst a - 1)%nat) (sv_axes v)) <? Z.of_nat (length (sm_buf m (sv_buf v))))%Z).

(** Models hankel_view, numpy/linalg.py:24-29, torch/linalg.py:24-30. *)
Definition hankel_mem (b : backend) (m : smem) (v : sview) (n_rows : nat) : res sview :=
  match sv_axes v with
  | (n, s) :: ax =>
      if Nat.ltb (n + 1) n_rows then Raise (shape_exn b)
      else
        let w := SView (sv_buf v) (sv_off v) ((n + 1 - n_rows, s) :: (n_rows, s) :: ax) in
        match b with
        | NumPy => Ok w
        | Torch => if in_storage m w then Ok w else Raise RuntimeError
        end
  | [] => Raise IndexError
  end.

(** H[..., ::-1, :], resp. H.flip(dims=(-2,)). *)
Definition flip_rows_mem (b : backend) (lays : nat -> layout) (m : smem) (H : sview)
  : res (sview * smem) :=
  match b with
  | NumPy => Ok (slice_view 1 None None (-1) H, m)
  | Torch => flip_copy lays m 1 H
  end.

(** Models toeplitz, numpy/linalg.py:32-39, torch/linalg.py:33-40. *)
Definition toeplitz_mem (b : backend) (lays : nat -> layout) (m : smem) (x : sview)
  : res (sview * smem) :=
  do (r, m1) <- match b with
    | NumPy => Ok (slice_view 0 None (Some 0%Z) (-1) x, m)
    | Torch => flip_copy lays m 0 (slice_view 0 (Some 1%Z) None 1 x)
    end;
  do (two_x, m2) <- cat b lays m1 r x;
  do H <- hankel_mem b m2 two_x (fst (axis 0 x));
  flip_rows_mem b lays m2 H.

(** The body of the loop of block_toeplitz, numpy/linalg.py:53-57, torch/linalg.py:54-58. *)
Definition block_body (b : backend) (lays : nat -> layout) (n : nat) (x out : sview)
    (m : smem) (rc : nat * nat) : res smem :=
  do xc <- select 0 (snd rc) x;
  do xrc <- select 0 (fst rc) xc;
  do (vec, m1) <- cat b lays m (slice_view 0 (Some (- Z.of_nat n + 1)%Z) None 1 xrc)
                                (slice_view 0 None (Some (Z.of_nat n)) 1 xrc);
  do H <- hankel_mem b m1 vec n;
  do (T, m2) <- flip_rows_mem b lays m1 H;
  do dc <- select 0 (snd rc) out;
  do dst <- select 1 (fst rc) dc;
  assign b m2 dst T.
Fixpoint block_loop (b : backend) (lays : nat -> layout) (n : nat) (x out : sview)
    (l : list (nat * nat)) (m : smem) : res smem :=
  match l with
  | [] => Ok m
  | rc :: l' => do m' <- block_body b lays n x out m rc; block_loop b lays n x out l' m'
  end.
(** out.reshape(out.shape[:-4] + (n * rows, n * cols)): (i, r, j, c) goes to (i rows + r, j cols + c). *)
Definition merge_idx (rows cols : nat) (k : list nat) : list nat :=
  match k with
  | c :: j :: r :: i :: k' => j * cols + c :: i * rows + r :: k'
  | _ => k
  end.
(** Models block_toeplitz, numpy/linalg.py:42-61, torch/linalg.py:44-62, with n = None. *)
Definition block_toeplitz_mem (b : backend) (lays : nat -> layout) (m : smem) (x : sview)
  : res (sview * smem) :=
  match sv_shape x with
  | cols :: rows :: top :: sh =>
      let n := top / 2 in
      let (out, m1) := alloc lays m (cols :: n :: rows :: n :: sh) [] in
      do m2 <- block_loop b lays n x out (list_prod (seq 0 rows) (seq 0 cols)) m1;
      do l <- read_all m2 out;
      Ok (alloc lays m2 (n * cols :: n * rows :: sh)
            (map (fun kr => (merge_idx rows cols (fst kr), snd kr)) l))
  | _ => Raise ValueError
  end.

(** ** metrics.py *)

(** Contents of an array given by a function. *)
Definition filled (shape : list nat) (f : list nat -> R) : content :=
  map (fun k => (k, f k)) (all_idx shape).

(** The output [a] of irfft is a new array; acf = a[..., :length]; acf[..., 0] += load_diag
    (numpy/metrics.py:123-134, 264, torch/metrics.py:118-130, 260). *)
Definition acf_mem (lays : nat -> layout) (m : smem) (L : nat) (ld : option R) (shape : list nat)
    (a : list nat -> R) : res (sview * smem) :=
  let (v, m1) := alloc lays m shape (filled shape a) in
  let acf := slice_view 0 None (Some (Z.of_nat L)) 1 v in
  match ld with
  | None => Ok (acf, m1)
  | Some d => do z <- select 0 0 acf; do m2 <- iadd m1 z d; Ok (acf, m2)
  end.

(** acf of compute_stats_2 is a new array of shape (..., lags, n_ref, n_ref);
    torch.diagonal(acf[..., 0, :, :]) += load_diag, torch/metrics.py:520-524.  In numpy (527-529) the
    same entries are addressed by two lists of indices. *)
Definition acf2_mem (lays : nat -> layout) (m : smem) (ld : option R) (shape : list nat)
    (a : list nat -> R) : res (sview * smem) :=
  let (acf, m1) := alloc lays m shape (filled shape a) in
  match ld with
  | None => Ok (acf, m1)
  | Some d =>
      do z <- select 2 0 acf;
      do dg <- diagonal z;
      do m2 <- iadd m1 dg d; Ok (acf, m2)
  end.
