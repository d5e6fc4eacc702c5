(** * The metrics on arrays with batch axes agree with the metrics on each item *)
From Coq Require Import Reals Lra.
From Coquelicot Require Import Complex.
From Verif Require Import Prelude ExtReal Slice Sums Fft FftProofs Helpers Linalg LinalgProofs Cgd CgdOps CgdPrecond Metrics Shapes ShapesProofs StatsProofs SpecSig PrepProofs Tensor TensorOps TensorCg.
Local Open Scope nat_scope.

(** ** The operators of the iterative solver *)
Lemma circ_col_eq b col : circ_col b col = sym_circ_col b col.
Proof. reflexivity. Qed.
Lemma zip_tab {A B D} (f : A -> B -> D) n x y da db :
  length x = n -> length y = n -> zip_with f x y = tab n (fun i => f (nth i x da) (nth i y db)).
Proof.
  intros Hx Hy. unfold zip_with. apply (nth_ext _ _ (f da db) (f da db)).
  - rewrite map_length, combine_length, length_tab. lia.
  - intros i Hi. rewrite map_length, combine_length in Hi. rewrite nth_tab by lia.
    rewrite (map_nth (fun p => f (fst p) (snd p)) _ (da, db)), combine_nth by lia. reflexivity.
Qed.
Lemma half2 n : 2 * n / 2 = n.
Proof. rewrite Nat.mul_comm, Nat.div_mul; lia. Qed.
Lemma eqb_sel k c : c < k -> (if Nat.eqb k 1 then 0 else c) = c.
Proof. destruct (Nat.eqb_spec k 1); lia. Qed.

Section Ops.
  Context (l : lib) (n k : nat) (bs e : shape) (col : tensor R) (F : idx -> list R).
  Hypothesis Hn : 0 < n.
  Hypothesis HL : length bs = length e.
  Hypothesis Hcol : rep [n] bs e col (fun m ci => nth (nth 0 ci 0) (F m) 0%R).
  Hypothesis HF : forall m, inr e m -> length (F m) = n.

  Lemma col_last : last_axis (tsh col) = n.
  Proof. rewrite (rep_sh _ _ _ _ _ Hcol). reflexivity. Qed.
  Lemma col_len : length (tsh col) = 1 + length e.
  Proof. rewrite (rep_sh _ _ _ _ _ Hcol), app_length, HL. reflexivity. Qed.

  (** the FFT along the columns of the argument *)
  Lemma cols_rfft x G nf : cols n k e x G -> (forall m c, inr e m -> c < k -> length (G m c) = n) ->
    rep [k; nf / 2 + 1] e e (t_rfft 1 nf x) (fun m ci => nth (nth 1 ci 0) (rfft nf (G m (nth 0 ci 0))) c0).
  Proof.
    intros Hx HG. apply (along_repL 1 0%R c0 (rfft nf) [k; n] e e x (fun m ci => G m (nth 0 ci 0)) (nf / 2 + 1)).
    - exact Hx.
    - cbn; lia.
    - intros m [|a [|b ci]] j; reflexivity.
    - intros m ci Hm Hc. apply inr2 in Hc. destruct Hc as (c & i & -> & Hc & Hi). apply HG; auto.
    - intros y _. apply length_rfft.
  Qed.

  Lemma toep_op_cols x G : cols n k e x G -> (forall m c, inr e m -> c < k -> length (G m c) = n) ->
    exists y, t_toep_op l col x = Ok y /\ cols n k e y (fun m c => toeplitz_op (bk l) (F m) (G m c)).
  Proof.
    intros Hx HG. unfold t_toep_op.
    rewrite col_last, col_len.
    pose proof (rep_sh _ _ _ _ _ Hx) as Hsx.
    replace (length (tsh x)) with (2 + length e) by (rewrite Hsx, app_length; reflexivity).
    replace (Nat.eqb (2 + length e) (1 + length e + 1)) with true by (symmetry; apply Nat.eqb_eq; lia).
    replace (nth 1 (tsh x) 0) with n by (rewrite Hsx; reflexivity). rewrite Nat.eqb_refl.
    assert (Hcc : rep [2 * n] bs e (along 0 0%R 0%R (circ_col (bk l)) col)
              (fun m ci => nth (nth 0 ci 0) (circ_col (bk l) (F m)) 0%R)).
    { apply (along_repL 0 0%R 0%R (circ_col (bk l)) [n] bs e col (fun m _ => F m) (2 * n)); auto.
      intros y Hy. cbn [nth] in Hy. rewrite circ_col_eq, length_sym_circ by lia. lia. }
    assert (E2 : last_axis (tsh (along 0 0%R 0%R (circ_col (bk l)) col)) = 2 * n)
      by (rewrite (rep_sh _ _ _ _ _ Hcc); reflexivity).
    rewrite E2.
    assert (Hcf : rep [2 * n / 2 + 1] bs e (t_rfft 0 (2 * n) (along 0 0%R 0%R (circ_col (bk l)) col))
              (fun m ci => nth (nth 0 ci 0) (rfft (2 * n) (circ_col (bk l) (F m))) c0)).
    { apply (along_repL 0 0%R c0 (rfft (2 * n)) [2 * n] bs e _ (fun m _ => circ_col (bk l) (F m)) (2 * n / 2 + 1)); auto.
      - intros m ci Hm _. rewrite circ_col_eq, length_sym_circ; rewrite HF; auto.
      - intros y _. apply length_rfft. }
    pose proof (cols_rfft x G (2 * n) Hx HG) as HY.
    assert (Hbc : bc [k; 2 * n / 2 + 1] [1; 2 * n / 2 + 1] = Some [k; 2 * n / 2 + 1]).
    { cbn [bc]. rewrite bc1_refl. replace (bc1 k 1) with (Some k); [reflexivity|].
      unfold bc1. destruct (Nat.eqb_spec k 1); auto. }
    destruct (tzip_full l Cmult _ _ _ bs e _ _ _ _ HY (newlast_rep _ _ _ _ _ Hcf) eq_refl Hbc) as (q & -> & Hq).
    cbn [bind]. eexists. split; [reflexivity|].
    assert (Hir : rep [k; 2 * n] e e (t_irfft 1 (2 * n) q) (fun m ci =>
        nth (nth 1 ci 0) (irfft (2 * n) (zip_with Cmult (rfft (2 * n) (G m (nth 0 ci 0))) (rfft (2 * n) (circ_col (bk l) (F m))))) 0%R)).
    { eapply rep_eq; [apply (along_rep 1 c0 0%R (irfft (2 * n)) _ _ _ _ _ (2 * n) Hq); [cbn; lia|intros; apply length_irfft]|].
      intros m ci Hm Hc. apply inr2 in Hc. destruct Hc as (c & i & -> & Hc & Hi).
      cbv beta. cbn [nth]. f_equal. f_equal. rewrite (zip_tab Cmult (2 * n / 2 + 1) _ _ c0 c0) by apply length_rfft.
      apply tab_ext. intros j Hj. cbn [put bix nth tl]. rewrite (eqb_sel k c Hc), !(eqb_sel _ j Hj). reflexivity. }
    eapply rep_eq; [apply (along_repL 1 0%R 0%R _ [k; 2 * n] e e _
       (fun m ci => irfft (2 * n) (zip_with Cmult (rfft (2 * n) (G m (nth 0 ci 0))) (rfft (2 * n) (circ_col (bk l) (F m))))) n Hir)|].
    - cbn; lia.
    - intros m [|a [|b ci]] j; reflexivity.
    - intros; apply length_irfft.
    - intros y Hy. cbn [nth] in Hy. rewrite (slice_to _ _ 0%R), length_tab. lia.
    - intros m ci Hm Hc. cbv beta. rewrite toeplitz_op_unfold.
      rewrite length_sym_circ by (rewrite HF; auto). rewrite (HF m Hm). reflexivity.
  Qed.

  Lemma pcol_eq b c : pcol b c = sym_col c.
  Proof. unfold pcol. rewrite sym_precond_col_ok. reflexivity. Qed.
  Lemma length_sym_col c : length (sym_col c) = length c.
  Proof. apply length_tab. Qed.

  Lemma circ_precond_cols x G : cols n k e x G -> (forall m c, inr e m -> c < k -> length (G m c) = n) ->
    exists y, t_circ_precond l col x = Ok y /\ cols n k e y (fun m c => circ_prec (F m) (G m c)).
  Proof.
    intros Hx HG. unfold t_circ_precond.
    assert (Hcc : rep [n] bs e (along 0 0%R 0%R (pcol (bk l)) col)
              (fun m ci => nth (nth 0 ci 0) (pcol (bk l) (F m)) 0%R)).
    { apply (along_repL 0 0%R 0%R (pcol (bk l)) [n] bs e col (fun m _ => F m) n); auto.
      intros y Hy. cbn [nth] in Hy. rewrite pcol_eq, length_sym_col. lia. }
    assert (E2 : last_axis (tsh (along 0 0%R 0%R (pcol (bk l)) col)) = n)
      by (rewrite (rep_sh _ _ _ _ _ Hcc); reflexivity).
    rewrite E2, col_len.
    pose proof (rep_sh _ _ _ _ _ Hx) as Hsx.
    replace (length (tsh x)) with (2 + length e) by (rewrite Hsx, app_length; reflexivity).
    replace (Nat.eqb (2 + length e) (1 + length e + 1)) with true by (symmetry; apply Nat.eqb_eq; lia).
    replace (nth 1 (tsh x) 0) with n by (rewrite Hsx; reflexivity). rewrite Nat.eqb_refl.
    assert (Hcf : rep [n / 2 + 1] bs e (t_rfft 0 n (along 0 0%R 0%R (pcol (bk l)) col))
              (fun m ci => nth (nth 0 ci 0) (rfft n (pcol (bk l) (F m))) c0)).
    { apply (along_repL 0 0%R c0 (rfft n) [n] bs e _ (fun m _ => pcol (bk l) (F m)) (n / 2 + 1)); auto.
      - intros m ci Hm _. rewrite pcol_eq, length_sym_col; apply HF; auto.
      - intros y _. apply length_rfft. }
    pose proof (tmap_rep _ _ _ _ _ (precond_freq (bk l)) Hcf) as Hci.
    pose proof (cols_rfft x G n Hx HG) as HY.
    assert (Hbc : bc [1; n / 2 + 1] [k; n / 2 + 1] = Some [k; n / 2 + 1]).
    { cbn [bc]. rewrite bc1_refl. rewrite (proj2 (bc1_le 1 k) (or_intror eq_refl)). reflexivity. }
    destruct (tzip_full_r l Cmult _ _ _ bs e _ _ _ _ (newlast_rep _ _ _ _ _ Hci) HY eq_refl Hbc) as (q & -> & Hq).
    cbn [bind]. eexists. split; [reflexivity|].
    eapply rep_eq; [apply (along_rep 1 c0 0%R (irfft n) _ _ _ _ _ n Hq); [cbn; lia|intros; apply length_irfft]|].
    intros m ci Hm Hc. apply inr2 in Hc. destruct Hc as (c & i & -> & Hc & Hi).
    cbv beta. cbn [nth]. unfold circ_prec. rewrite (HF m Hm). f_equal. f_equal.
    rewrite (zip_tab Cmult (n / 2 + 1) _ _ c0 c0) by (rewrite ?map_length; apply length_rfft).
    apply tab_ext. intros j Hj. cbn [put bix nth tl]. rewrite (eqb_sel k c Hc), !(eqb_sel _ j Hj).
    f_equal. rewrite pcol_eq, precond_freq_b.
    rewrite (nth_indep (map _ _) c0 (precond_freq NumPy c0)) by (rewrite map_length, length_rfft; auto).
    rewrite map_nth. reflexivity.
  Qed.

  (** toeplitz_conjugate_gradient *)
  Lemma toeplitz_cg_rep b B n_iter : cols n k e b B -> (forall m c, inr e m -> c < k -> length (B m c) = n) ->
    exists z, t_toeplitz_cg l col b n_iter = Ok z /\
      cols n k e z (fun m c => toeplitz_cg_spec (F m) (B m c) n_iter).
  Proof.
    intros Hb HB. unfold t_toeplitz_cg.
    destruct (cg_holds l n k e _ _ (fun m => toeplitz_op (bk l) (F m)) (fun m => circ_prec (F m))
                toep_op_cols circ_precond_cols) with (b := b) (B := B) (A := sh_toeplitz (tsh col))
      (x0 := @None (tensor R)) (X0 := fun (_ : idx) (_ : nat) => repeat 0%R n) (n_iter := n_iter) as (z & E & Hz); auto.
    - intros m v Hm Hv. rewrite length_circ_prec. auto.
    - rewrite (rep_sh _ _ _ _ _ Hcol). cbn. lia.
    - rewrite (rep_sh _ _ _ _ _ Hcol). reflexivity.
    - exists z. split; auto. eapply cols_eq; [exact Hz|]. intros m c Hm Hc. cbv beta.
      unfold toeplitz_cg_spec, conjugate_gradient. rewrite (HF m Hm). f_equal. apply cg_run_ext.
      + apply repeat_length.
      + intros v Hv. apply toeplitz_op_dense. rewrite HF; auto. lia.
      + auto.
      + intros v Hv. rewrite length_circ_prec. auto.
  Qed.
End Ops.
