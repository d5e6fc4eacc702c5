(** * Extended reals with NaN

    Exact real arithmetic extended with the special values of IEEE-754 and their
    rules (as followed by numpy and torch).  Rounding and the sign of zero are not
    modelled: [x / 0] follows the rule for a positive zero. *)
From Coq Require Import Reals Lra List Bool.
Import ListNotations.
Local Open Scope R_scope.

Inductive xr : Type :=
  | Fin (r : R)
  | PInf
  | NInf
  | NaN.

Definition Rltb (x y : R) : bool := if Rlt_dec x y then true else false.
Definition Reqb (x y : R) : bool := if Req_EM_T x y then true else false.

Definition xneg (a : xr) : xr :=
  match a with Fin r => Fin (- r) | PInf => NInf | NInf => PInf | NaN => NaN end.

Definition xadd (a b : xr) : xr :=
  match a, b with
  | NaN, _ | _, NaN => NaN
  | Fin x, Fin y => Fin (x + y)
  | PInf, NInf | NInf, PInf => NaN
  | PInf, _ | _, PInf => PInf
  | NInf, _ | _, NInf => NInf
  end.
Definition xsub (a b : xr) : xr := xadd a (xneg b).

(** Product with the sign rule; 0 * inf = NaN. *)
Definition xsign_mul_inf (r : R) (pos : bool) : xr :=
  if Reqb r 0 then NaN
  else if Bool.eqb (Rltb 0 r) pos then PInf else NInf.
Definition xmul (a b : xr) : xr :=
  match a, b with
  | NaN, _ | _, NaN => NaN
  | Fin x, Fin y => Fin (x * y)
  | Fin x, PInf | PInf, Fin x => xsign_mul_inf x true
  | Fin x, NInf | NInf, Fin x => xsign_mul_inf x false
  | PInf, PInf | NInf, NInf => PInf
  | PInf, NInf | NInf, PInf => NInf
  end.

(** Division; 0/0 = NaN, x/0 = inf with the sign of x, inf/inf = NaN. *)
Definition xdiv (a b : xr) : xr :=
  match a, b with
  | NaN, _ | _, NaN => NaN
  | Fin x, Fin y =>
      if Reqb y 0 then (if Reqb x 0 then NaN else if Rltb 0 x then PInf else NInf)
      else Fin (x / y)
  | Fin _, PInf | Fin _, NInf => Fin 0
  | PInf, Fin y => if Rltb y 0 then NInf else PInf
  | NInf, Fin y => if Rltb y 0 then PInf else NInf
  | PInf, PInf | PInf, NInf | NInf, PInf | NInf, NInf => NaN
  end.

(** Order (false when a NaN is involved). *)
Definition xleb (a b : xr) : bool :=
  match a, b with
  | NaN, _ | _, NaN => false
  | NInf, _ => true
  | _, PInf => true
  | Fin x, Fin y => if Rle_dec x y then true else false
  | _, _ => false
  end.
Definition xle (a b : xr) : Prop := xleb a b = true.
Definition xlt (a b : xr) : Prop := xleb a b = true /\ xleb b a = false.

(** NaN-propagating maximum / minimum (np.maximum, np.minimum, torch.clamp,
    ndarray.min, Tensor.min). *)
Definition xmax (a b : xr) : xr :=
  match a, b with
  | NaN, _ | _, NaN => NaN
  | _, _ => if xleb a b then b else a
  end.
Definition xmin (a b : xr) : xr :=
  match a, b with
  | NaN, _ | _, NaN => NaN
  | _, _ => if xleb a b then a else b
  end.

Definition xabs (a : xr) : xr :=
  match a with Fin r => Fin (Rabs r) | PInf | NInf => PInf | NaN => NaN end.

Definition xsqrt (a : xr) : xr :=
  match a with
  | Fin r => if Rltb r 0 then NaN else Fin (sqrt r)
  | PInf => PInf
  | NInf | NaN => NaN
  end.

Definition log10 (x : R) : R := ln x / ln 10.
Definition xlog10 (a : xr) : xr :=
  match a with
  | Fin r => if Rltb r 0 then NaN else if Reqb r 0 then NInf else Fin (log10 r)
  | PInf => PInf
  | NInf | NaN => NaN
  end.

Definition xsum (l : list xr) : xr := fold_right xadd (Fin 0) l.

Definition is_nan (a : xr) : bool := match a with NaN => true | _ => false end.
Definition is_posinf (a : xr) : bool := match a with PInf => true | _ => false end.
Definition is_neginf (a : xr) : bool := match a with NInf => true | _ => false end.
Definition is_inf (a : xr) : bool := match a with PInf | NInf => true | _ => false end.
Definition is_fin (a : xr) : bool := match a with Fin _ => true | _ => false end.

(** Real value of a finite entry (0 otherwise). *)
Definition to_R (a : xr) : R := match a with Fin r => r | _ => 0 end.

(** ** Facts *)
Lemma Rltb_true x y : Rltb x y = true <-> x < y.
Proof. unfold Rltb. destruct (Rlt_dec x y); split; auto; congruence. Qed.
Lemma Rltb_false x y : Rltb x y = false <-> y <= x.
Proof. unfold Rltb. destruct (Rlt_dec x y); split; intros; try congruence; lra. Qed.
Lemma Reqb_true x y : Reqb x y = true <-> x = y.
Proof. unfold Reqb. destruct (Req_EM_T x y); split; auto; congruence. Qed.
Lemma Reqb_false x y : Reqb x y = false <-> x <> y.
Proof. unfold Reqb. destruct (Req_EM_T x y); split; auto; congruence. Qed.

Lemma xle_fin x y : xle (Fin x) (Fin y) <-> x <= y.
Proof. unfold xle; simpl. destruct (Rle_dec x y); split; auto; congruence. Qed.
Lemma xlt_fin x y : xlt (Fin x) (Fin y) <-> x < y.
Proof.
  unfold xlt; simpl. destruct (Rle_dec x y); destruct (Rle_dec y x); split; intros H;
    try lra; try (destruct H; congruence); split; auto; exfalso; lra.
Qed.

Lemma xmax_fin x y : xmax (Fin x) (Fin y) = Fin (Rmax x y).
Proof. simpl. unfold Rmax. destruct (Rle_dec x y); reflexivity. Qed.
Lemma xmin_fin x y : xmin (Fin x) (Fin y) = Fin (Rmin x y).
Proof. simpl. unfold Rmin. destruct (Rle_dec x y); reflexivity. Qed.

Lemma xdiv_fin x y : y <> 0 -> xdiv (Fin x) (Fin y) = Fin (x / y).
Proof. intros H. simpl. apply Reqb_false in H. rewrite H. reflexivity. Qed.
Lemma xsub_fin x y : xsub (Fin x) (Fin y) = Fin (x - y).
Proof. reflexivity. Qed.

Lemma xlog10_fin x : 0 < x -> xlog10 (Fin x) = Fin (log10 x).
Proof.
  intros H. simpl. replace (Rltb x 0) with false.
  2:{ symmetry; apply Rltb_false; lra. }
  replace (Reqb x 0) with false; auto. symmetry; apply Reqb_false; lra.
Qed.
Lemma xlog10_0 : xlog10 (Fin 0) = NInf.
Proof.
  simpl. replace (Rltb 0 0) with false by (symmetry; apply Rltb_false; lra).
  replace (Reqb 0 0) with true; auto. symmetry; apply Reqb_true; auto.
Qed.

Lemma xsum_fin l : xsum (map Fin l) = Fin (fold_right Rplus 0 l).
Proof. induction l as [|x l IH]; simpl; auto. unfold xsum in *. simpl. rewrite IH. reflexivity. Qed.
