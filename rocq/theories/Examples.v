(** * Concrete instances used to show that the theorems are not vacuous *)
From Coq Require Import Reals Lra.
From Verif Require Import Prelude ExtReal Hungarian HungarianTop HungarianZ Helpers.

(** Matrix with the given integer rows. *)
Definition zmat (rows : list (list Z)) (i j : nat) : Z := nth j (nth i rows []) 0%Z.
(** Entries of a literal matrix of extended reals. *)
Definition xmat (rows : list (list xr)) (i j : nat) : xr := nth j (nth i rows []) (Fin 0).

Definition ex_cost : list (list Z) := [[4; 1; 3]; [2; 0; 5]; [3; 2; 2]]%Z.
Definition ex_wide : list (list Z) := [[-7; 1; 3; 1]; [2; -5; -5; 4]]%Z.

(** A 3 x 3 matrix whose best assignment is the cycle 0->1->2->0. *)
Definition ex_cycle : list (list xr) :=
  [[Fin 1; Fin 0; Fin 1]; [Fin 1; Fin 1; Fin 0]; [Fin 0; Fin 1; Fin 1]].

(** Matrices with infinite entries. *)
Definition ex_posinf : list (list xr) := [[PInf; Fin 3; Fin 1]; [PInf; PInf; Fin (-2)]].
Definition ex_neginf : list (list xr) := [[NInf; Fin 3]; [Fin 0; NInf]; [Fin 5; Fin 1]].
