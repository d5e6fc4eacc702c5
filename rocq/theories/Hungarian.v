(** * Model of fast_bss_eval/torch/hungarian.py

    The code is generic in the number type [A]; the operations used on tensor
    entries are comparison, addition, subtraction and the test [== 0].
    A 2-D tensor of shape (n, m) is a function [nat -> nat -> A] read only at
    indices below n and m.  In-place writes become functional updates. *)
From Verif Require Import Prelude.

(** Arithmetic on tensor entries used by hungarian.py. *)
Record num_ops (A : Type) : Type := {
  n_zero : A;
  n_add : A -> A -> A;
  n_sub : A -> A -> A;
  n_leb : A -> A -> bool;      (* <= *)
  n_is0 : A -> bool            (* == 0 *)
}.
Arguments n_zero {A} _.
Arguments n_add {A} _ _ _.
Arguments n_sub {A} _ _ _.
Arguments n_leb {A} _ _ _.
Arguments n_is0 {A} _ _.

Section Model.
  Context {A : Type} (ops : num_ops A).

  (** Models class _Hungary, hungarian.py:116-134 (fields).  [marked] holds
      0 (nothing), 1 (starred) or 2 (primed). *)
  Record hungary : Type := mkHungary {
    hC : nat -> nat -> A;
    row_uncovered : nat -> bool;
    col_uncovered : nat -> bool;
    Z0_r : nat;
    Z0_c : nat;
    hpath : nat -> nat * nat;
    marked : nat -> nat -> nat
  }.

  (** Models _Hungary.__init__, hungarian.py:125-134. *)
  Definition hungary_init (C : nat -> nat -> A) : hungary :=
    {| hC := C;                              (* cost_matrix.clone() *)
       row_uncovered := fun _ => true;
       col_uncovered := fun _ => true;
       Z0_r := 0; Z0_c := 0;
       hpath := fun _ => (0, 0);
       marked := fun _ _ => 0 |}.

  (** Field updates (plumbing). *)
  Definition set_C st C := mkHungary C (row_uncovered st) (col_uncovered st)
    (Z0_r st) (Z0_c st) (hpath st) (marked st).
  Definition set_row_uncovered st r := mkHungary (hC st) r (col_uncovered st)
    (Z0_r st) (Z0_c st) (hpath st) (marked st).
  Definition set_col_uncovered st c := mkHungary (hC st) (row_uncovered st) c
    (Z0_r st) (Z0_c st) (hpath st) (marked st).
  Definition set_Z0 st r c := mkHungary (hC st) (row_uncovered st) (col_uncovered st)
    r c (hpath st) (marked st).
  Definition set_path st p := mkHungary (hC st) (row_uncovered st) (col_uncovered st)
    (Z0_r st) (Z0_c st) p (marked st).
  Definition set_marked st mk := mkHungary (hC st) (row_uncovered st) (col_uncovered st)
    (Z0_r st) (Z0_c st) (hpath st) mk.

  (** Models _Hungary._clear_covers, hungarian.py:136-139. *)
  Definition clear_covers (st : hungary) : hungary :=
    set_col_uncovered (set_row_uncovered st (fun _ => true)) (fun _ => true).

  (** The step functions return the next step (None = done). *)
  Inductive step : Type := Step1 | Step3 | Step4 | Step5 | Step6.

  (** Minimum of two entries / of a non-empty list of entries (torch.min). *)
  Definition nmin (a b : A) : A := if n_leb ops a b then a else b.
  Definition minimum (d : A) (l : list A) : A :=
    match l with [] => d | x :: r => fold_left nmin r x end.

  (** Models _step1, hungarian.py:146-162. *)
  Definition step1_star (st : hungary) (ij : nat * nat) : hungary :=
    let (i, j) := ij in
    if col_uncovered st j && row_uncovered st i then
      set_row_uncovered
        (set_col_uncovered (set_marked st (upd2 (marked st) i j 1))
           (upd (col_uncovered st) j false))
        (upd (row_uncovered st) i false)
    else st.
  Definition step1 (n m : nat) (st : hungary) : hungary :=
    (* state.C -= state.C.min(dim=-1).values[:, None] *)
    let C := fun i j =>
      n_sub ops (hC st i j) (minimum (n_zero ops) (map (hC st i) (seq 0 m))) in
    let st := set_C st C in
    (* for i, j in (state.C == 0).nonzero(): ... *)
    let st := fold_left step1_star
                (nonzero2 n m (fun i j => n_is0 ops (hC st i j))) st in
    clear_covers st.

  Definition is_star (st : hungary) (i j : nat) : bool := Nat.eqb (marked st i j) 1.
  Definition is_prime (st : hungary) (i j : nat) : bool := Nat.eqb (marked st i j) 2.

  (** Models _step3, hungarian.py:165-175. *)
  Definition step3 (n m : nat) (st : hungary) : hungary * option step :=
    let cu := fun j =>
      if existsb (fun i => is_star st i j) (seq 0 n) then false
      else col_uncovered st j in
    let st' := set_col_uncovered st cu in
    if Nat.ltb (length (nonzero2 n m (is_star st))) n
    then (st', Some Step4) else (st', None).

  (** Models the loop of _step4, hungarian.py:192-214.  [Cz] is the local [C]
      (mask of zeros), [cov] the local [covered_C]. *)
  Fixpoint step4_loop (n m fuel : nat) (Cz cov : nat -> nat -> bool) (st : hungary)
    : res (hungary * step) :=
    match fuel with
    | O => Raise OutOfFuel
    | S fuel =>
      match nonzero2 n m cov with
      | [] => Ok (st, Step6)
      | (row, col) :: _ =>
        let st := set_marked st (upd2 (marked st) row col 2) in
        match nonzero1 m (fun j => is_star st row j) with
        | [] => Ok (set_Z0 st row col, Step5)
        | col' :: _ =>
          let st := set_col_uncovered
                      (set_row_uncovered st (upd (row_uncovered st) row false))
                      (upd (col_uncovered st) col' true) in
          let cov := fun i j =>
            if Nat.eqb i row then false
            else if Nat.eqb j col' then Cz i j && row_uncovered st i
            else cov i j in
          step4_loop n m fuel Cz cov st
        end
      end
    end.

  (** Models _step4, hungarian.py:178-214.  The loop covers one new row per
      iteration, so fuel [n + 1] suffices (proved). *)
  Definition step4 (n m : nat) (st : hungary) : res (hungary * step) :=
    let Cz := fun i j => n_is0 ops (hC st i j) in
    let cov := fun i j => Cz i j && row_uncovered st i && col_uncovered st j in
    step4_loop n m (n + 1) Cz cov st.

  (** Models the first loop of _step5, hungarian.py:233-254.  Writing outside the
      (n + m) rows of [path], or taking [nz[0]] of an empty [nz], raises
      IndexError. *)
  Fixpoint step5_path (n m fuel : nat) (mk : nat -> nat -> nat)
      (path : nat -> nat * nat) (count : nat) : res ((nat -> nat * nat) * nat) :=
    match fuel with
    | O => Raise OutOfFuel
    | S fuel =>
      match nonzero1 n (fun i => Nat.eqb (mk i (snd (path count))) 1) with
      | [] => Ok (path, count)
      | row :: _ =>
        let count1 := count + 1 in
        if Nat.ltb count1 (n + m) then
          let path := upd path count1 (row, snd (path (count1 - 1))) in
          match nonzero1 m (fun j => Nat.eqb (mk (fst (path count1)) j) 2) with
          | [] => Raise IndexError
          | col :: _ =>
            let count2 := count1 + 1 in
            if Nat.ltb count2 (n + m) then
              step5_path n m fuel mk
                (upd path count2 (fst (path (count2 - 1)), col)) count2
            else Raise IndexError
          end
        else Raise IndexError
      end
    end.

  (** One iteration of the loop "Convert paths", hungarian.py:257-261. *)
  Definition step5_flip (path : nat -> nat * nat) (mk : nat -> nat -> nat) (i : nat)
    : nat -> nat -> nat :=
    if Nat.eqb (mk (fst (path i)) (snd (path i))) 1
    then upd2 mk (fst (path i)) (snd (path i)) 0
    else upd2 mk (fst (path i)) (snd (path i)) 1.

  (** Models _step5, hungarian.py:217-266. *)
  Definition step5 (n m : nat) (st : hungary) : res hungary :=
    let path := upd (hpath st) 0 (Z0_r st, Z0_c st) in
    do (path, count) <- step5_path n m (n + m) (marked st) path 0;
    let mk := fold_left (step5_flip path) (seq 0 (count + 1)) (marked st) in
    let st := clear_covers (set_path (set_marked st mk) path) in
    (* state.marked[state.marked == 2] = 0 *)
    Ok (set_marked st (fun i j => if Nat.eqb (marked st i j) 2 then 0 else marked st i j)).

  (** Models _step6, hungarian.py:269-281. *)
  Definition step6 (n m : nat) (st : hungary) : hungary :=
    if existsb (row_uncovered st) (seq 0 n) && existsb (col_uncovered st) (seq 0 m) then
      let rows := nonzero1 n (row_uncovered st) in
      let cols := nonzero1 m (col_uncovered st) in
      (* minval = torch.min(state.C[state.row_uncovered], dim=0).values *)
      let colmin := fun j => minimum (n_zero ops) (map (fun i => hC st i j) rows) in
      (* minval = torch.min(minval[state.col_uncovered]) *)
      let minval := minimum (n_zero ops) (map colmin cols) in
      (* state.C[~state.row_uncovered] += minval *)
      let C1 := fun i j =>
        if row_uncovered st i then hC st i j else n_add ops (hC st i j) minval in
      (* state.C[:, state.col_uncovered] -= minval *)
      let C2 := fun i j =>
        if col_uncovered st j then n_sub ops (C1 i j) minval else C1 i j in
      set_C st C2
    else st.

  (** One turn of the state machine. *)
  Definition do_step (n m : nat) (s : step) (st : hungary) : res (hungary * option step) :=
    match s with
    | Step1 => Ok (step1 n m st, Some Step3)
    | Step3 => Ok (step3 n m st)
    | Step4 => do (st, s) <- step4 n m st; Ok (st, Some s)
    | Step5 => do st <- step5 n m st; Ok (st, Some Step3)
    | Step6 => Ok (step6 n m st, Some Step4)
    end.

  (** Models the driver loop, hungarian.py:103-104. *)
  Fixpoint run (n m fuel : nat) (s : option step) (st : hungary) : res hungary :=
    match s with
    | None => Ok st
    | Some s =>
      match fuel with
      | O => Raise OutOfFuel
      | S fuel => do (st, s) <- do_step n m s st; run n m fuel s st
      end
    end.

  (** Fuel for the driver loop, used by the model of the callers.  That it
      is enough for every input is part of the theorems. *)
  Definition run_fuel (n : nat) : nat := 2 + (n + 1) * (2 * n + 4).

  (** Models linear_sum_assignment, hungarian.py:91-113, for a NaN-free 2-D cost
      matrix of shape (n, m) (the checks of lines 82-88 are in Helpers.v).
      Returns the list of pairs (row, col). *)
  Definition linear_sum_assignment (fuel n m : nat) (C : nat -> nat -> A)
    : res (list (nat * nat)) :=
    let transposed := Nat.ltb m n in
    let C' := if transposed then fun i j => C j i else C in
    let n' := if transposed then m else n in
    let m' := if transposed then n else m in
    let st := hungary_init C' in
    (* step = None if 0 in cost_matrix.shape else _step1 *)
    let s := if Nat.eqb n' 0 || Nat.eqb m' 0 then None else Some Step1 in
    do st <- run n' m' fuel s st;
    if transposed then Ok (nonzero2 n m (fun i j => is_star st j i))
    else Ok (nonzero2 n m (is_star st)).
End Model.
