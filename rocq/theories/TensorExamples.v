(** * A batch of two items: the example of SigExamples twice, one estimate array for both *)
From Coq Require Import Reals Lra.
From Verif Require Import Prelude ExtReal Sums Spec Helpers HelpersProofs PermProofs Linalg Cgd Metrics Shapes ShapesProofs StatsProofs MetricsProofs
  Outputs Edge Solvability Witness SigExamples Diag
  Tensor TensorOps TensorSdr TensorDiag TensorBss TensorEval.
Local Open Scope nat_scope.

Definition ex_tref : tensor R := Tn [5; 2; 2] (fun i => nth (nth 0 i 0) (exr (nth 1 i 0)) 0%R).
Definition ex_test : tensor R := Tn [5; 2; 1] (fun i => nth (nth 0 i 0) (exe (nth 1 i 0)) 0%R).
Lemma ex_tref_item m : t_item ex_tref m = ex_ref.
Proof. reflexivity. Qed.
Lemma ex_test_item m : t_item ex_test m = ex_est.
Proof. reflexivity. Qed.
Lemma ex_in m : m < 2 -> inr [2] [m].
Proof. intros H. apply Forall2_cons; [exact H|constructor]. Qed.
Lemma ex_pos : Forall (lt 0) [2].
Proof. repeat constructor. Qed.

Lemma ex_t_sdr l sp : lsa_contract sp -> exists v p,
  t_sdr l sp (plain_opts 2) false ex_tref ex_test = Ok (v, p) /\ tsh v = [2; 2] /\
  forall m, m < 2 -> t_vec v [m] = [Fin (- (10 * log10 (3 / 5))); Fin (- (10 * log10 (2 / 5)))] /\ t_vec p [m] = [0; 1].
Proof.
  intros Hsp.
  pose proof (t_sdr_items l (plain_opts 2) 5 5 2 2 [2] [1] [2] ex_tref ex_test eq_refl eq_refl ltac:(lia) ltac:(lia) eq_refl
    ltac:(cbn; lia) ltac:(intros H; exfalso; apply H; reflexivity) sp false Hsp) as H.
  destruct (t_sdr l sp (plain_opts 2) false ex_tref ex_test) as [[v p]|er].
  - destruct H as (H1 & _ & H). exists v, p. split; auto. split; auto. intros m Hm. specialize (H [m] (ex_in m Hm)).
    rewrite ex_tref_item, ex_test_item, (ex_sdr (bk l) sp Hsp) in H. injection H as H2 H3. rewrite <- H2, <- H3. auto.
  - destruct (H ex_pos) as (m & _ & er' & Her). rewrite ex_tref_item, ex_test_item, (ex_sdr (bk l) sp Hsp) in Her. discriminate.
Qed.

Lemma ex_t_bss l sp : lsa_contract sp -> exists s i a p,
  t_bss l sp (plain_opts 2) ex_tref ex_test = Ok (s, i, a, p) /\ tsh s = [2; 2] /\
  forall m, m < 2 -> bss_eval_sources (bk l) sp (plain_opts 2) ex_ref ex_est = Ok (t_vec s [m], t_vec i [m], t_vec a [m], t_vec p [m]).
Proof.
  intros Hsp.
  pose proof (t_bss_items l (plain_opts 2) 5 5 2 2 [2] [1] [2] ex_tref ex_test eq_refl eq_refl ltac:(lia) ltac:(lia) ltac:(lia) eq_refl
    ltac:(cbn; lia) ltac:(intros H; exfalso; apply H; reflexivity) sp Hsp) as H.
  destruct (t_bss l sp (plain_opts 2) ex_tref ex_test) as [[[[s i] a] p]|er].
  - destruct H as (H1 & _ & H). exists s, i, a, p. split; auto. inversion H1; subst. split; auto. intros m Hm.
    specialize (H [m] (ex_in m Hm)). rewrite ex_tref_item, ex_test_item in H. exact H.
  - destruct (H ex_pos) as (m & _ & er' & Her). rewrite ex_tref_item, ex_test_item, (ex_bss (bk l) sp Hsp) in Her. discriminate.
Qed.

(** pairwise = False on numpy 1.x, where the vectors of the direct solver are recognised *)
Lemma ex_noperm b : exists s i a, bss_eval_sources_noperm b (plain_opts 2) ex_ref ex_est = Ok (s, i, a) /\ length s = 2.
Proof.
  rewrite noperm_diag by (auto; cbn; lia). destruct (ex_sq_cos_ok b) as [c ->]. cbn [bind].
  destruct (bss_mats (plain_opts 2) c) as [[x y] z]. do 3 eexists. split; reflexivity.
Qed.
Lemma ex_t_noperm : exists s i a,
  t_bss_noperm Np1 (plain_opts 2) ex_tref ex_test = Ok (s, i, a) /\ tsh s = [2; 2] /\
  forall m, m < 2 -> bss_eval_sources_noperm NumPy (plain_opts 2) ex_ref ex_est = Ok (t_vec s [m], t_vec i [m], t_vec a [m]).
Proof.
  pose proof (t_bss_noperm_items Np1 (plain_opts 2) 5 5 2 [2] [1] [2] ex_tref ex_test eq_refl eq_refl ltac:(lia) ltac:(lia) ltac:(lia) eq_refl
    ltac:(cbn; lia) ltac:(intros H; exfalso; apply H; reflexivity) ltac:(intros; reflexivity) ltac:(discriminate)) as H.
  destruct (t_bss_noperm Np1 (plain_opts 2) ex_tref ex_test) as [[[s i] a]|er].
  - destruct H as (H1 & H). exists s, i, a. split; auto. inversion H1; subst. split; auto. intros m Hm.
    specialize (H [m] (ex_in m Hm)). rewrite ex_tref_item, ex_test_item in H. exact H.
  - destruct (H ex_pos) as (m & _ & er' & Her). rewrite ex_tref_item, ex_test_item in Her.
    destruct (ex_noperm NumPy) as (s & i & a & E & _). cbn [bk] in Her. rewrite E in Her. discriminate.
Qed.

(** the losses *)
Lemma ex_t_pairwise l : exists z, t_sdr_loss l true (plain_opts 2) ex_test ex_tref = Ok z /\ tsh z = [2; 2; 2] /\
  forall m, m < 2 -> pairwise_sdr_loss (bk l) (plain_opts 2) ex_est ex_ref = Ok (t_mat z [m]).
Proof.
  pose proof (t_sdr_loss_items l (plain_opts 2) 5 5 2 2 [2] [1] [2] ex_tref ex_test eq_refl eq_refl ltac:(lia) ltac:(lia) eq_refl
    ltac:(cbn; lia) ltac:(intros H; exfalso; apply H; reflexivity)) as H.
  destruct (t_sdr_loss l true (plain_opts 2) ex_test ex_tref) as [z|er].
  - destruct H as (H1 & H). exists z. split; auto. split; auto. intros m Hm. specialize (H [m] (ex_in m Hm)).
    rewrite ex_tref_item, ex_test_item in H. exact H.
  - destruct (H ex_pos) as (m & _ & er' & Her). rewrite ex_tref_item, ex_test_item in Her.
    destruct (ex_pairwise_ok (bk l) 2 ltac:(lia)) as [v Hv]. congruence.
Qed.
Lemma ex_t_loss : exists z, t_sdr_loss Np1 false (plain_opts 2) ex_test ex_tref = Ok z /\ tsh z = [2; 2] /\
  forall m, m < 2 -> sdr_loss NumPy (plain_opts 2) ex_est ex_ref = Ok (t_vec z [m]).
Proof.
  pose proof (t_sdr_loss_diag_items Np1 (plain_opts 2) 5 5 2 [2] [1] [2] ex_tref ex_test eq_refl eq_refl ltac:(lia) ltac:(lia) eq_refl
    ltac:(cbn; lia) ltac:(intros H; exfalso; apply H; reflexivity) ltac:(intros; reflexivity)) as H.
  destruct (t_sdr_loss Np1 false (plain_opts 2) ex_test ex_tref) as [z|er].
  - destruct H as (H1 & H). exists z. split; auto. split; auto. intros m Hm. specialize (H [m] (ex_in m Hm)).
    rewrite ex_tref_item, ex_test_item in H. exact H.
  - destruct (H ex_pos) as (m & _ & er' & Her). rewrite ex_tref_item, ex_test_item in Her.
    destruct (ex_pairwise_ok NumPy 2 ltac:(lia)) as [v Hv].
    rewrite (sdr_loss_diag (bk Np1) (plain_opts 2) ex_ref ex_est eq_refl) in Her. cbn [bk] in Her. rewrite Hv in Her. discriminate.
Qed.

(** torch >= 1.8, filter_length > n_fft: the direct solver takes the k vectors for one matrix *)
Lemma long_filter T L : 2 <= T -> n_fft T T < L -> L <= 2 * n_fft T T ->
  sh_bss Th2 false L None [T; L] [T; L] = Ok ([L; L], [L; L], [L]).
Proof.
  intros HT H1 H2. set (N := n_fft T T) in *.
  assert (HN : 2 <= N).
  { unfold N, n_fft. pose proof (Nat.log2_up_spec (T + Nat.max T T - 1) ltac:(lia)). lia. }
  unfold sh_bss. rewrite Nat.eqb_refl. cbn [negb andb].
  unfold sh_cosine. destruct (Nat.eqb_spec L 1) as [->|_]; [lia|].
  assert (Es : sh_stats2 Th2 L [T; L] [T; L] = Ok ([L; L; 2 * N], [L; L; N])).
  { unfold sh_stats2, ein_ncd. cbn [last_axis set_last hd of_opt bind bc]. fold N. rewrite bc1_refl. cbn [of_opt bind].
    replace (Nat.min L N) with N by lia. replace (2 * N) with (N + N) by lia. reflexivity. }
  rewrite Es. cbn [bind]. unfold sh_diag. rewrite Nat.min_id. replace (Nat.min L (2 * N)) with L by lia.
  cbn [sh_toeplitz].
  assert (Ev : sh_solve Th2 [L; L; L] [N; L] = Ok [N; L; L]).
  { unfold sh_solve, vector_rhs. cbn [length Nat.eqb orb tl]. unfold shape_eqb.
    destruct (list_eq_dec _ _ _) as [Q|_]; [injection Q; lia|]. unfold solve_mat. rewrite Nat.eqb_refl. reflexivity. }
  cbn [bind]. rewrite Ev. cbn [bind]. unfold ein_l. rewrite bc1_refl. cbn [of_opt bind bc]. rewrite bc1_refl. cbn [of_opt bind].
  unfold sh_block_toeplitz. rewrite (Nat.mul_comm 2 N), Nat.div_mul by lia.
  destruct (Nat.eqb_spec N 1); [lia|]. cbn [bind sh_flat].
  assert (Ew : sh_solve Th2 [N * L; N * L] [L; N * L] = Ok [L; N * L]).
  { unfold sh_solve, vector_rhs. cbn [length Nat.eqb orb tl]. unfold shape_eqb.
    destruct (list_eq_dec _ _ _) as [Q|_]; [discriminate|]. unfold solve_mat. rewrite Nat.eqb_refl. reflexivity. }
  rewrite Ew. cbn [bind]. unfold ein_lc. rewrite !bc1_refl. cbn [bc of_opt bind].
  cbn [bc]. rewrite bc1_refl. cbn [of_opt bind]. reflexivity.
Qed.
