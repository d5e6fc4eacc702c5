(** * Batched _solve_permutation with memory

    Model of numpy/helpers.py:72-149, torch/helpers.py:67-157 and of the use of memory
    in torch/hungarian.py, on arrays with any batch shape.  Arrays live in buffers
    of a heap; [loss_mat\[m\]] and [swapaxes]/[transpose] are views of the same
    buffer, [copy()]/[clone()] allocate.  The pure model of one batch item is in
    Helpers.v; this file relates the two. *)
From Coq Require Import Reals.
From Verif Require Import Prelude ExtReal Hungarian HungarianTop Helpers.
Local Open Scope nat_scope.

Definition index : Type := list nat.
Record heap : Type := mkHeap { next : nat; buf : nat -> index -> xr }.

Definition alloc (h : heap) (f : index -> xr) : nat * heap :=
  (next h, mkHeap (S (next h)) (upd (buf h) (next h) f)).

(** A 2-D view of a buffer: where entry (i,j) is stored, and the inverse map. *)
Record view : Type := mkView {
  vaddr : nat;
  vidx : nat -> nat -> index;
  vinv : index -> option (nat * nat) }.

Definition vread (h : heap) (v : view) : nat -> nat -> xr :=
  fun i j => buf h (vaddr v) (vidx v i j).
(** In-place assignment of all entries of a view. *)
Definition vwrite (h : heap) (v : view) (f : nat -> nat -> xr) : heap :=
  mkHeap (next h) (upd (buf h) (vaddr v) (fun k =>
    match vinv v k with Some (i, j) => f i j | None => buf h (vaddr v) k end)).
(** Transposed view (no copy). *)
Definition vtrans (v : view) : view :=
  mkView (vaddr v) (fun i j => vidx v j i)
    (fun k => match vinv v k with Some (i, j) => Some (j, i) | None => None end).
(** View of a freshly allocated 2-D array. *)
Definition whole (a : nat) : view :=
  mkView a (fun i j => [i; j]) (fun k => match k with [i; j] => Some (i, j) | _ => None end).
(** copy() / clone(). *)
Definition vcopy (h : heap) (v : view) : view * heap :=
  let (a, h') := alloc h (fun k => match k with [i; j] => vread h v i j | _ => NaN end) in
  (whole a, h').

(** View of batch item [m] of an array of shape b_shape + (n, m): basic indexing. *)
Fixpoint strip (m k : index) : option index :=
  match m, k with
  | [], _ => Some k
  | x :: m', y :: k' => if Nat.eqb x y then strip m' k' else None
  | _ :: _, [] => None
  end.
Definition item (a : nat) (m : index) : view :=
  mkView a (fun i j => m ++ [i; j])
    (fun k => match strip m k with Some [i; j] => Some (i, j) | _ => None end).

(** Models hungarian.py:103-104 with [state.C] stored in the heap at view [v]: every
    step reads it and writes it back in place (lines 151, 279, 280). *)
Fixpoint run_h (n m fuel : nat) (s : option step) (h : heap) (v : view) (st : @hungary R)
  : res (@hungary R) * heap :=
  match s with
  | None => (Ok st, h)
  | Some s =>
    match fuel with
    | O => (Raise OutOfFuel, h)
    | S fuel =>
      match do_step R_ops n m s (set_C st (fun i j => to_R (vread h v i j))) with
      | Raise e => (Raise e, h)
      | Ok (st, s) => run_h n m fuel s (vwrite h v (fun i j => Fin (hC st i j))) v st
      end
    end
  end.

(** Models linear_sum_assignment, hungarian.py:91-134, on a view of finite numbers. *)
Definition hungarian_h (fuel n m : nat) (h : heap) (v : view)
  : res (list (nat * nat)) * heap :=
  let transposed := Nat.ltb m n in
  let v' := if transposed then vtrans v else v in      (* transpose(-2,-1): a view *)
  let n' := if transposed then m else n in
  let m' := if transposed then n else m in
  let (vc, h) := vcopy h v' in                         (* _Hungary: cost_matrix.clone() *)
  let st := hungary_init (fun i j => to_R (vread h vc i j)) in
  let s := if Nat.eqb n' 0 || Nat.eqb m' 0 then None else Some Step1 in
  let (r, h) := run_h n' m' fuel s h vc st in
  (do st <- r;
   if transposed then Ok (nonzero2 n m (fun i j => is_star st j i))
   else Ok (nonzero2 n m (is_star st)), h).

(** The call of linear_sum_assignment (see [lsa] in Helpers.v); scipy's function is
    assumed not to write to its argument. *)
Definition lsa_h (b : backend) (sp : scipy_lsa) (n m : nat) (h : heap) (v : view)
  : res (list (nat * nat)) * heap :=
  let C := vread h v in
  if existsb2 n m (fun i j => negb (is_fin (C i j))) then (Raise ValueError, h)
  else
    match b with
    | NumPy => (Ok (sp n m (fun i j => to_R (C i j))), h)
    | Torch => hungarian_h (run_fuel (Nat.min n m)) n m h v
    end.

(** Models _linear_sum_assignment_with_inf, numpy/helpers.py:115-149,
    torch/helpers.py:109-157. *)
Definition lsa_with_inf_h (b : backend) (sp : scipy_lsa) (n m : nat) (h : heap) (v : view)
  : res (list (nat * nat)) * heap :=
  if (match b with Torch => Nat.eqb (n * m) 0 | NumPy => false end) then (Ok [], h)
  else
    let C := vread h v in
    let min_inf := existsb2 n m (fun i j => is_neginf (C i j)) in
    let max_inf := existsb2 n m (fun i j => is_posinf (C i j)) in
    if min_inf && max_inf then (Raise ValueError, h)
    else if min_inf || max_inf then
      let (vc, h) := vcopy h v in                  (* cost_matrix = cost_matrix.copy() *)
      let C := vread h vc in
      let values := filter (fun v => negb (is_inf v)) (entries n m C) in
      match (do mi <- values_min b values; do ma <- values_max b values; Ok (mi, ma)) with
      | Raise e => (Raise e, h)
      | Ok (mi, ma) =>
        let nn := Fin (INR (Nat.min n m)) in
        let positive :=
          xmul nn (xadd (xadd (xadd (xsub ma mi) (xabs ma)) (xabs mi)) (Fin 1)) in
        let nn1 := xsub nn (Fin 1) in
        let place_holder :=
          if min_inf then xsub (xadd mi (xmul nn1 (xsub mi ma))) positive
          else xadd (xadd ma (xmul nn1 (xsub ma mi))) positive in
        (* cost_matrix[isinf(cost_matrix)] = place_holder *)
        let h := vwrite h vc (fun i j => if is_inf (C i j) then place_holder else C i j) in
        lsa_h b sp n m h vc
      end
    else lsa_h b sp n m h v.

(** np.ndindex: all multi-indices of a shape, row-major. *)
Fixpoint ndindex (shape : list nat) : list index :=
  match shape with
  | [] => [[]]
  | d :: r => flat_map (fun i => map (cons i) (ndindex r)) (seq 0 d)
  end.

Definition idx_eqb (a b : index) : bool := if list_eq_dec Nat.eq_dec a b then true else false.
Definition updi {A} (f : index -> A) (k : index) (v : A) : index -> A :=
  fun x => if idx_eqb x k then v else f x.

(** Output arrays: loss_out, args_out, p_opts, one row per batch index. *)
Record outs : Type := mkOuts {
  o_loss : index -> list xr;
  o_args : list (index -> list xr);
  o_perm : index -> list nat }.

(** loss_mat[m] after the optional swapaxes/transpose of the last two dimensions. *)
Definition bitem (swap : bool) (m : index) (a : nat) : view :=
  if swap then vtrans (item a m) else item a m.

(** One iteration of the loop, numpy/helpers.py:96-103, torch/helpers.py:91-98. *)
Definition batch_body (b : backend) (sp : scipy_lsa) (n_ref n_est : nat)
    (loss : nat) (args : list nat) (m : index) (o : outs) (h : heap) : res outs * heap :=
  let swap := Nat.ltb n_est n_ref in
  let it := bitem swap m in
  let n := if swap then n_est else n_ref in
  let mm := if swap then n_ref else n_est in
  let (r, h) := lsa_with_inf_h b sp n mm h (it loss) in
  match r with
  | Raise e => (Raise e, h)
  | Ok l =>
    let pick := fun a : nat => map (fun p : nat * nat => vread h (it a) (fst p) (snd p)) l in
    (Ok (mkOuts (updi (o_loss o) m (pick loss))
           (map (fun oa : (index -> list xr) * nat => updi (fst oa) m (pick (snd oa))) (combine (o_args o) args))
           (updi (o_perm o) m (map snd l))), h)
  end.
Fixpoint batch_loop (b : backend) (sp : scipy_lsa) (n_ref n_est : nat)
    (loss : nat) (args : list nat) (ms : list index) (o : outs) (h : heap) : res outs * heap :=
  match ms with
  | [] => (Ok o, h)
  | m :: ms =>
    let (r, h) := batch_body b sp n_ref n_est loss args m o h in
    match r with
    | Raise e => (Raise e, h)
    | Ok o => batch_loop b sp n_ref n_est loss args ms o h
    end
  end.

(** Models _solve_permutation on arrays of shape b_shape + (n_ref, n_est) stored in
    buffers [loss] and [args]. *)
Definition solve_permutation_batch (b : backend) (sp : scipy_lsa) (b_shape : list nat)
    (n_ref n_est : nat) (loss : nat) (args : list nat) (h : heap) : res outs * heap :=
  let n_out := Nat.min n_ref n_est in
  let zeros := fun _ : index => repeat (Fin 0) n_out in
  let o := mkOuts zeros (map (fun _ => zeros) args) (fun _ => repeat 0 n_out) in
  batch_loop b sp n_ref n_est loss args (ndindex b_shape) o h.
