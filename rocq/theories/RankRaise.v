(** * Arrays without channel axis: what the functions reject, and what they misread *)
From Coq Require Import Reals Lra.
From Coquelicot Require Import Complex.
From Verif Require Import Prelude ExtReal Slice Sums Fft FftProofs Helpers HelpersProofs DbProofs Linalg LinalgProofs Cgd CgdOps Metrics Shapes ShapesProofs
  StatsProofs SpecSig PrepProofs MetricsProofs Spec PermProofs Witness Tensor TensorOps TensorProofs TensorSdr TensorDiag Rank.
Local Open Scope nat_scope.

Lemma along_rank {A B} k da db (f : list A -> list B) t : length (tsh (along k da db f t)) = length (tsh t).
Proof. unfold along. cbn [tsh]. apply put_length. Qed.

(** ** Pairwise functions need two axes *)
Definition flat (t : tensor R) : Prop := length (tsh t) <= 1.

Lemma ein_cd_flat l s t : length s <= 1 \/ length t <= 1 -> raises (ein_cd l s t).
Proof.
  intros H. unfold ein_cd. destruct s as [|n [|c b]]; try (eexists; reflexivity).
  destruct t as [|n' [|d b']]; try (eexists; reflexivity). cbn in H. lia.
Qed.
Lemma ein_cnd_flat l s t : length s <= 1 \/ length t <= 1 -> raises (ein_cnd l s t).
Proof.
  intros H. unfold ein_cnd. destruct s as [|n [|c b]]; try (eexists; reflexivity).
  destruct t as [|n' [|d b']]; try (eexists; reflexivity). cbn in H. lia.
Qed.
Lemma ein_ncd_flat l s t : length s <= 1 \/ length t <= 1 -> raises (ein_ncd l s t).
Proof.
  intros H. unfold ein_ncd. destruct s as [|n [|c b]]; try (eexists; reflexivity).
  destruct t as [|n' [|d b']]; try (eexists; reflexivity). cbn in H. lia.
Qed.

Section Flat.
  Context (l : lib) (o : opts) (ref est : tensor R).
  Hypothesis H : flat ref \/ flat est.
  Lemma flat_len1 pw ld sar : pw || sar = true -> raises (t_len1 l (zero_mean o) pw ld sar ref est).
  Proof.
    intros E. unfold t_len1. rewrite E. unfold t_ein_cd.
    destruct (ein_cd_flat l (tsh (t_prep (zero_mean o) ref)) (tsh (t_prep (zero_mean o) est))) as [er ->].
    { unfold t_prep. rewrite !along_rank. exact H. }
    eexists. reflexivity.
  Qed.
  Lemma flat_loss : raises (t_sdr_loss l true o est ref).
  Proof.
    unfold t_sdr_loss, t_sdr_coh. destruct (Nat.eqb (filter_length o) 1).
    - destruct (flat_len1 true None false eq_refl) as [er ->]. eexists. reflexivity.
    - unfold t_stats, t_ein_cnd. cbn [tsh tmap].
      destruct (ein_cnd_flat l (tsh (t_rfft 0 (n_fft (last_axis (tsh (t_prep (zero_mean o) ref))) (last_axis (tsh (t_prep (zero_mean o) est)))) (t_prep (zero_mean o) ref)))
        (tsh (t_rfft 0 (n_fft (last_axis (tsh (t_prep (zero_mean o) ref))) (last_axis (tsh (t_prep (zero_mean o) est)))) (t_prep (zero_mean o) est)))) as [er ->].
      { unfold t_rfft, t_prep. rewrite !along_rank. exact H. }
      eexists. reflexivity.
  Qed.
  Lemma flat_sdr sp cs : raises (t_sdr l sp o cs ref est).
  Proof. unfold t_sdr. destruct flat_loss as [er ->]. eexists. reflexivity. Qed.
  Lemma flat_cosine pw : raises (t_cosine l pw o ref est).
  Proof.
    unfold t_cosine. destruct (Nat.eqb (filter_length o) 1).
    - destruct (flat_len1 pw (load_diag o) true (orb_true_r _)) as [er ->]. eexists. reflexivity.
    - unfold t_stats2, t_ein_ncd. cbn [tsh tmap].
      set (nf := n_fft _ _). set (X := t_rfft 0 nf (t_prep (zero_mean o) ref)). set (Y := t_rfft 0 nf (t_prep (zero_mean o) est)).
      assert (H2 : length (tsh X) <= 1 \/ length (tsh Y) <= 1) by (unfold X, Y, t_rfft, t_prep; rewrite !along_rank; exact H).
      destruct (ein_ncd_flat l (tsh X) (tsh Y) H2) as [er ->].
      destruct (ein_ncd l (tsh X) (tsh X)) as [s|er']; eexists; reflexivity.
  Qed.
  Lemma flat_bss sp : raises (t_bss l sp o ref est).
  Proof. unfold t_bss. destruct (flat_cosine true) as [er ->]. eexists. reflexivity. Qed.
  Lemma flat_bss_noperm : raises (t_bss_noperm l o ref est).
  Proof.
    unfold t_bss_noperm. destruct (Nat.eqb _ _); [|eexists; reflexivity].
    destruct (flat_cosine false) as [er ->]. eexists. reflexivity.
  Qed.
End Flat.
Theorem flat_rejected l sp o cs ref est : flat ref \/ flat est ->
  raises (t_sdr_loss l true o est ref) /\ raises (t_sdr l sp o cs ref est) /\
  raises (t_bss l sp o ref est) /\ raises (t_bss_noperm l o ref est).
Proof.
  intros H. split; [apply flat_loss; auto|]. split; [apply flat_sdr; auto|]. split; [apply flat_bss; auto|apply flat_bss_noperm; auto].
Qed.

(** ** Axes that do not broadcast *)
Theorem signals_mismatch l o lx ly br be ref est : tsh ref = lx :: br -> tsh est = ly :: be -> bc br be = None ->
  raises (t_sdr_loss l false o est ref).
Proof.
  intros Hr He E.
  assert (T1 : tsh (t_prep (zero_mean o) ref) = lx :: br) by apply (rep_sh _ _ _ _ _ (prep_sigs (zero_mean o) lx br br ref Hr (sle_refl _))).
  assert (T2 : tsh (t_prep (zero_mean o) est) = ly :: be) by apply (rep_sh _ _ _ _ _ (prep_sigs (zero_mean o) ly be be est He (sle_refl _))).
  unfold t_sdr_loss, t_sdr_coh. destruct (Nat.eqb (filter_length o) 1).
  - unfold t_len1. cbn [orb bind]. unfold t_ein_l. rewrite T1, T2. unfold ein_l. destruct (bc1 lx ly); [|eexists; reflexivity].
    cbn [of_opt bind]. rewrite E. eexists. reflexivity.
  - unfold t_stats, tzip, bcr. cbn [tsh tmap]. rewrite T1, T2. unfold t_rfft, along. cbn [tsh]. rewrite T1, T2. cbn [put nth bc].
    rewrite E. destruct (bc1 _ _); eexists; reflexivity.
Qed.

(** ** Otherwise the solver takes the signals for the columns of a matrix *)
Theorem misread_shape l o lx ly br be e ref est z :
  tsh ref = lx :: br -> tsh est = ly :: be -> 0 < lx -> 0 < ly -> bc br be = Some e ->
  2 <= filter_length o ->
  match use_cg_iter o with Some _ => length br < length be | None => ~ vectors l br e end ->
  t_sdr_loss l false o est ref = Ok z -> exists e', e = Nat.min (filter_length o) (n_fft lx ly) :: e'.
Proof.
  intros Hr He Hx Hy E HL Hm Hz.
  destruct (bc_absorb _ _ _ E) as (S1 & S2 & _ & _).
  pose proof (prep_sigs (zero_mean o) lx br e ref Hr S1) as HX1. pose proof (prep_sigs (zero_mean o) ly be e est He S2) as HY1.
  assert (T1 := rep_sh _ _ _ _ _ HX1). assert (T2 := rep_sh _ _ _ _ _ HY1). cbn [app] in T1, T2.
  destruct (stats_sig_rep l (filter_length o) lx ly br be e _ _ _ _ T1 T2 E HX1 HY1
    (fun m _ => length_sprep (zero_mean o) ref _ lx br Hr) (fun m _ => length_sprep (zero_mean o) est _ ly be He))
    as (acf & xc & Est & Hacf & Hxc).
  pose proof (sigs_along _ _ _ _ _ Hacf (fun m _ => length_stats_acf _ _ _) (add_load (load_diag o)) _
          (fun x Hx => eq_trans (length_add_load _ _) Hx)) as Hacf'.
  set (N := Nat.min (filter_length o) (n_fft lx ly)) in *.
  unfold t_sdr_loss, t_sdr_coh in Hz. destruct (Nat.eqb_spec (filter_length o) 1); [lia|]. rewrite Est in Hz. cbn [bind] in Hz.
  assert (T3 := rep_sh _ _ _ _ _ Hacf'). assert (T4 := rep_sh _ _ _ _ _ Hxc). cbn [app] in T3, T4.
  destruct (use_cg_iter o) as [it|].
  - unfold t_toeplitz_cg, t_cg in Hz. rewrite T3, T4 in Hz. cbn [sh_toeplitz length] in Hz.
    pose proof (bc_length _ _ _ E) as Q.
    destruct (Nat.eqb_spec (S (S (length br))) (S (length e) + 1)); [lia|].
    rewrite T4 in Hz. cbn [length nth] in Hz.
    destruct (Nat.eqb_spec (S (S (length br))) (S (length e))); [|discriminate].
    destruct e as [|k e']; [cbn in *; lia|]. cbn [nth andb] in Hz.
    destruct (Nat.eqb_spec N k); [|discriminate]. subst k. eauto.
  - unfold t_solve, sh_solve in Hz. rewrite T4 in Hz. unfold t_toeplitz in Hz. cbn [tsh] in Hz. rewrite T3 in Hz. cbn [sh_toeplitz] in Hz.
    assert (Hv : vector_rhs l (N :: N :: br) (N :: e) = false).
    { destruct (vector_rhs l (N :: N :: br) (N :: e)) eqn:Q; auto. exfalso. apply Hm. unfold vector_rhs, vectors in *.
      destruct l; cbn [length tl] in *.
      - apply Nat.eqb_eq in Q. lia.
      - apply Nat.eqb_eq in Q. destruct e; [reflexivity|cbn in *; lia].
      - apply Nat.eqb_eq in Q. lia.
      - apply orb_true_iff in Q. destruct Q as [Q|Q].
        + apply Nat.eqb_eq in Q. destruct e; [|cbn in *; lia]. destruct br; auto. exfalso. apply (sle_nil_r _ _ S1).
        + unfold shape_eqb in Q. destruct (list_eq_dec _ _ _); [congruence|discriminate]. }
    rewrite Hv in Hz. unfold solve_mat in Hz. destruct e as [|k e']; [discriminate|].
    rewrite Nat.eqb_refl in Hz. cbn [andb] in Hz. destruct (Nat.eqb_spec N k); [subst k; eauto|discriminate].
Qed.
