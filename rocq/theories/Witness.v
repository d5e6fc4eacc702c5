(** * Concrete signals: refutations and non-vacuity witnesses *)
From Coq Require Import Reals Lra.
From Coquelicot Require Import Complex.
From Verif Require Import Prelude ExtReal Slice Sums SpecSig Fft Helpers HelpersProofs PermProofs DbProofs Linalg
  LinalgProofs Cgd Metrics StatsProofs LeastSq PrepProofs MetricsProofs SarProofs ProjTheorems MetricTheorems
  CgdOps CgdPrecond CgProofs CgCirc Cells CgTheorems Diag Outputs Edge Solvability Spec.
Local Open Scope nat_scope.

(** array of real channels *)
Definition rarr (n : nat) (vs : list (list R)) : arr := Arr n (map (map Fin) vs).
Lemma rarr_wf n vs : 0 < n -> Forall (fun v => length v = n) vs -> wf (rarr n vs).
Proof.
  intros Hn H. split; auto. rewrite Forall_forall in *. intros x Hx. simpl in Hx.
  apply in_map_iff in Hx. destruct Hx as (v & <- & Hv). rewrite map_length. auto.
Qed.
Lemma rarr_chan n vs c : c < length vs -> has_chan (rarr n vs) c (nth c vs []).
Proof.
  intros H. split; [unfold n_chan; simpl; rewrite map_length; auto|]. simpl.
  rewrite (nth_indep _ [] (map Fin [])) by (rewrite map_length; auto). apply map_nth.
Qed.
Lemma rarr_chans n vs : has_chans (rarr n vs) (fun c => nth c vs []).
Proof. intros c Hc. apply rarr_chan. unfold n_chan in Hc. simpl in Hc. rewrite map_length in Hc. auto. Qed.
Lemma rarr_n n vs : n_chan (rarr n vs) = length vs.
Proof. apply map_length. Qed.

(** options: filter length, everything else off *)
Definition plain_opts (L : nat) : opts := Opts L None false None None.
Definition clamp_opts (L : nat) (D : R) : opts := Opts L None false (Some D) None.

Lemma norm2_one v : Rsum (length v) (fun t => smp v t ^ 2)%R = 1%R -> norm2 v = 1%R.
Proof. intros H. unfold norm2. rewrite H. apply sqrt_1. Qed.
Lemma eps_le_1 : (norm_eps <= 1)%R.
Proof.
  unfold norm_eps. rewrite <- Rinv_1. apply Rinv_le_contravar; [lra|]. apply pow_R1_Rle. lra.
Qed.
Lemma unit_of_one v : norm2 v = 1%R -> unit_of v = v.
Proof.
  intros H. unfold unit_of, gain. rewrite H, Rmax_left by apply eps_le_1. rewrite Rinv_1.
  rewrite <- (map_id v) at 2. apply map_ext. intros. ring.
Qed.

(** one-tap coherences of unit norm signals *)
Lemma coh1 b o n vs ws m c d : filter_length o = 1 -> zero_mean o = false -> 0 < n ->
  Forall (fun v => length v = n) vs -> Forall (fun v => length v = n) ws ->
  c < length vs -> d < length ws ->
  norm2 (nth c vs []) = 1%R -> norm2 (nth d ws []) = 1%R ->
  sdr_coh b o (rarr n vs) (rarr n ws) = Ok m ->
  mat_of m c d = Fin (dot n (smp (nth c vs [])) (smp (nth d ws [])) ^ 2).
Proof.
  intros H1 Hz Hn Hv Hw Hc Hd Nv Nw H.
  pose proof (rarr_wf n vs Hn Hv) as Wv. pose proof (rarr_wf n ws Hn Hw) as Ww.
  destruct (has_chan_pchan (zero_mean o) _ c _ Wv (rarr_chan n vs c Hc)) as [Pv _].
  destruct (has_chan_pchan (zero_mean o) _ d _ Ww (rarr_chan n ws d Hd)) as [Pw _].
  rewrite (sdr_entry1 b o _ _ m c d _ _ Wv Ww H H1 eq_refl Pv Pw). rewrite Hz. simpl pre.
  rewrite !unit_of_one by auto. reflexivity.
Qed.
Lemma coh1_ok b o n vs ws : filter_length o = 1 -> exists m, sdr_coh b o (rarr n vs) (rarr n ws) = Ok m.
Proof.
  intros H. unfold sdr_coh. rewrite H. simpl Nat.eqb. cbn iota. unfold bc_len. simpl a_len.
  rewrite Nat.eqb_refl. eexists. reflexivity.
Qed.

(** ** C10: the documented direction of the permutation is wrong *)
Definition unit3 (i : nat) : list R :=
  match i with 0 => [1; 0; 0] | 1 => [0; 1; 0] | _ => [0; 0; 1] end%R.
Definition cyc_ref : arr := rarr 3 [unit3 0; unit3 1; unit3 2].
(** estimate d is reference d + 1 *)
Definition cyc_est : arr := rarr 3 [unit3 1; unit3 2; unit3 0].
Definition cyc_loss (i j : nat) : xr :=
  if Nat.eqb i ((j + 1) mod 3) then Fin (- 30) else Fin 30.

Lemma unit3_norm i : norm2 (unit3 i) = 1%R.
Proof. apply norm2_one. destruct i as [|[|i]]; cbv [unit3 length smp Rsum gsum nth]; simpl; ring. Qed.
Lemma unit3_dot i j : i < 3 -> j < 3 -> dot 3 (smp (unit3 i)) (smp (unit3 j)) = (if Nat.eqb i j then 1 else 0)%R.
Proof.
  intros Hi Hj. destruct i as [|[|[|i]]]; try lia; destruct j as [|[|[|j]]]; try lia;
    unfold dot, smp; simpl; ring.
Qed.
Lemma Forall3 {A} (P : A -> Prop) a b c : P a -> P b -> P c -> Forall P [a; b; c].
Proof. auto. Qed.

Lemma cyc_mat b m : pairwise_sdr_loss b (clamp_opts 1 30) cyc_est cyc_ref = Ok m ->
  forall i j, i < 3 -> j < 3 -> mat_of m i j = cyc_loss i j.
Proof.
  intros H i j Hi Hj. unfold pairwise_sdr_loss in H.
  destruct (sdr_coh b (clamp_opts 1 30) cyc_ref cyc_est) as [m0|] eqn:E; [|discriminate].
  cbn [bind] in H. injection H as <-. rewrite mat_of_to_db.
  assert (Er : forall c, c < 3 -> nth c [unit3 0; unit3 1; unit3 2] [] = unit3 c)
    by (intros [|[|[|c]]] Hc; try lia; reflexivity).
  assert (Ee : forall c, c < 3 -> nth c [unit3 1; unit3 2; unit3 0] [] = unit3 ((c + 1) mod 3))
    by (intros [|[|[|c]]] Hc; try lia; reflexivity).
  assert (L3 : forall i, length (unit3 i) = 3) by (intros [|[|k]]; reflexivity).
  rewrite (coh1 b (clamp_opts 1 30) 3 _ _ m0 i j eq_refl eq_refl ltac:(lia)
    (Forall3 _ _ _ _ (L3 0) (L3 1) (L3 2)) (Forall3 _ _ _ _ (L3 1) (L3 2) (L3 0))
    Hi Hj ltac:(rewrite Er by auto; apply unit3_norm) ltac:(rewrite Ee by auto; apply unit3_norm) E).
  rewrite Er, Ee by auto. rewrite unit3_dot by (auto; apply Nat.mod_upper_bound; lia).
  unfold cyc_loss. simpl clamp_db. destruct (Nat.eqb i ((j + 1) mod 3)).
  - replace (1 ^ 2)%R with 1%R by ring. apply clamp_high. lra.
  - replace (0 ^ 2)%R with 0%R by ring. apply clamp_low. lra.
Qed.

Definition cyc_best : list (nat * nat) := [(0, 2); (1, 0); (2, 1)].
Lemma cyc_complete : complete_assignment 3 3 cyc_best.
Proof.
  split; [reflexivity|]. split.
  - intros i j [E|[E|[E|[]]]]; injection E as <- <-; lia.
  - split; simpl; repeat constructor; simpl; intuition lia.
Qed.

Theorem cyc_sdr b sp : lsa_contract sp ->
  sdr b sp (clamp_opts 1 30) false cyc_ref cyc_est = Ok ([Fin 30; Fin 30; Fin 30], [2; 0; 1]).
Proof.
  intros Hsp.
  destruct (coh1_ok b (clamp_opts 1 30) 3 [unit3 0; unit3 1; unit3 2] [unit3 1; unit3 2; unit3 0] eq_refl) as (m0 & E0).
  assert (E : pairwise_sdr_loss b (clamp_opts 1 30) cyc_est cyc_ref = Ok (to_db (clamp_opts 1 30) m0)).
  { unfold pairwise_sdr_loss. fold cyc_ref cyc_est in E0. rewrite E0. reflexivity. }
  set (m := to_db (clamp_opts 1 30) m0) in *.
  pose proof (cyc_mat b m E) as Hm.
  assert (Hf : forall i j, i < n_chan cyc_ref -> j < n_chan cyc_est -> is_fin (mat_of m i j) = true).
  { intros i j Hi Hj. rewrite Hm by (auto; apply Hi || apply Hj). unfold cyc_loss.
    destruct (Nat.eqb i ((j + 1) mod 3)); reflexivity. }
  destruct (sdr_optimal b sp (clamp_opts 1 30) cyc_ref cyc_est m Hsp E Hf) as (vals & perm & Es & Hopt).
  destruct (sdr_outputs b sp _ false _ _ vals perm Hsp Es) as (m' & E' & Hc & Hlen & Hnd & Hr & Hv).
  assert (m' = m) by congruence. subst m'.
  specialize (Hopt cyc_best cyc_complete).
  change (n_chan cyc_ref) with 3 in *. change (n_chan cyc_est) with 3 in *.
  destruct perm as [|p0 [|p1 [|p2 [|p3 perm]]]]; try (simpl in Hlen; discriminate).
  assert (H0 : p0 < 3) by (apply (Hr p0); simpl; auto).
  assert (H1 : p1 < 3) by (apply (Hr p1); simpl; auto).
  assert (H2 : p2 < 3) by (apply (Hr p2); simpl; auto).
  unfold matching in Hv. simpl in Hv. unfold pair_at in Hv. simpl in Hv. unfold at_pair in *.
  cbn [fst snd] in *. subst vals. simpl in Hopt. rewrite !Hm in Hopt by auto.
  rewrite Es, !Hm by auto. clear Es Hc Hnd Hlen Hr Hf E' E E0 Hm. clear m m0.
  revert Hopt. unfold cyc_loss.
  destruct p0 as [|[|[|p0]]]; try lia; destruct p1 as [|[|[|p1]]]; try lia; destruct p2 as [|[|[|p2]]]; try lia;
    simpl; intros Hopt; try (exfalso; lra); do 2 f_equal; repeat (f_equal; try lra).
Qed.
(** perm sends references to estimates; read the other way round it is wrong *)
Theorem cyc_direction b sp perm vals : lsa_contract sp ->
  sdr b sp (clamp_opts 1 30) false cyc_ref cyc_est = Ok (vals, perm) ->
  (forall i, i < 3 -> nth (nth i perm 0) (a_chans cyc_est) [] = nth i (a_chans cyc_ref) []) /\
  (forall i, i < 3 -> nth (nth i perm 0) (a_chans cyc_ref) [] <> nth i (a_chans cyc_est) []).
Proof.
  intros Hsp H. rewrite (cyc_sdr b sp Hsp) in H. injection H as <- <-. split.
  - intros [|[|[|i]]] Hi; try lia; reflexivity.
  - intros [|[|[|i]]] Hi; try lia; simpl; intros X; injection X; intros; lra.
Qed.

(** ** C06: perfect estimates without clamp_db *)
Theorem mono_perfect_raises b sp o cs ref est x y M : wf ref -> wf est ->
  use_cg_iter o = None -> load_diag o = None -> clamp_db o = None ->
  1 <= filter_length o <= Nat.max (a_len ref) (a_len est) ->
  (filter_length o = 1 ->
     a_len ref = a_len est /\ (norm_eps <= norm2 (pre (zero_mean o) x))%R) ->
  n_chan ref = 1 -> n_chan est = 1 -> has_chan ref 0 x -> has_chan est 0 y ->
  (norm_eps <= norm2 (pre (zero_mean o) y))%R ->
  a_len ref + filter_length o - 1 <= M -> a_len est <= M ->
  in_span (filter_length o) M (delays (pre (zero_mean o) x)) (smp (pre (zero_mean o) y)) ->
  raises (sdr b sp o cs ref est).
Proof.
  intros Hwr Hwe Hcg Hld Hcl HL HL1 Nr Ne Hx Hy Hny HM1 HM2 Hs. unfold sdr.
  destruct (pairwise_sdr_loss b o est ref) as [m|e] eqn:E; [|eexists; reflexivity].
  destruct (sdr_perfect b o ref est m 0 0 x y M) as (Hp & _); auto.
  destruct (solve_perm_allinf sp b (n_chan ref) (n_chan est) (mat_of m) []) as (e & Ee).
  - lia.
  - lia.
  - intros i j Hi Hj. replace i with 0 by lia. replace j with 0 by lia.
    rewrite (proj2 (Hp Hcl) Hs). reflexivity.
  - cbn [bind]. rewrite Ee. eexists. reflexivity.
Qed.
Theorem perfect_and_orthogonal_raises b sp o cs ref est c d x y c' d' x' y' M : wf ref -> wf est ->
  use_cg_iter o = None -> load_diag o = None -> clamp_db o = None ->
  1 <= filter_length o <= Nat.max (a_len ref) (a_len est) ->
  (filter_length o = 1 ->
     a_len ref = a_len est /\ (norm_eps <= norm2 (pre (zero_mean o) x))%R) ->
  has_chan ref c x -> has_chan est d y -> has_chan ref c' x' -> has_chan est d' y' ->
  (norm_eps <= norm2 (pre (zero_mean o) y))%R ->
  a_len ref + filter_length o - 1 <= M -> a_len est <= M ->
  in_span (filter_length o) M (delays (pre (zero_mean o) x)) (smp (pre (zero_mean o) y)) ->
  orthogonal_to (filter_length o) (pre (zero_mean o) x') (pre (zero_mean o) y') ->
  raises (sdr b sp o cs ref est).
Proof.
  intros Hwr Hwe Hcg Hld Hcl HL HL1 Hx Hy Hx' Hy' Hny HM1 HM2 Hs Ho. unfold sdr.
  destruct (pairwise_sdr_loss b o est ref) as [m|e] eqn:E; [|eexists; reflexivity].
  destruct (sdr_perfect b o ref est m c d x y M) as (Hp & _); auto.
  cbn [bind]. rewrite (solve_perm_both sp b _ _ (mat_of m) [] c' d' c d); auto.
  - eexists. reflexivity.
  - apply Hx'.
  - apply Hy'.
  - apply Hx.
  - apply Hy.
  - rewrite (orth_loss b o ref est m c' d' x' y'); auto.
    + unfold worst_loss. rewrite Hcl. reflexivity.
    + intros H1. apply HL1. auto.
    + intros D. rewrite Hcl. discriminate.
  - apply (proj2 (Hp Hcl) Hs).
Qed.
(** two orthogonal references, estimated perfectly *)
Theorem perfect_stereo_raises b sp cs :
  sdr b sp (plain_opts 1) cs (rarr 2 [[1; 0]; [0; 1]]%R) (rarr 2 [[1; 0]; [0; 1]]%R) = Raise ValueError.
Proof.
  assert (HF : Forall (fun v : list R => length v = 2) [[1; 0]; [0; 1]]%R) by (repeat constructor).
  assert (N0 : norm2 [1; 0]%R = 1%R) by (apply norm2_one; simpl; unfold smp; simpl; ring).
  assert (N1 : norm2 [0; 1]%R = 1%R) by (apply norm2_one; simpl; unfold smp; simpl; ring).
  unfold sdr, pairwise_sdr_loss.
  destruct (coh1_ok b (plain_opts 1) 2 [[1; 0]; [0; 1]]%R [[1; 0]; [0; 1]]%R eq_refl) as (m & E).
  rewrite E. cbn [bind].
  rewrite (solve_perm_both sp b _ _ _ [] 0 1 0 0); try (unfold n_chan; simpl; lia); try rewrite mat_of_to_db; [reflexivity| |].
  - rewrite (coh1 b (plain_opts 1) 2 _ _ m 0 1 eq_refl eq_refl ltac:(lia) HF HF ltac:(simpl; lia) ltac:(simpl; lia) N0 N1 E).
    apply neg_sdr_pos_inf. right. eexists. split; [reflexivity|]. unfold dot, smp. simpl. lra.
  - rewrite (coh1 b (plain_opts 1) 2 _ _ m 0 0 eq_refl eq_refl ltac:(lia) HF HF ltac:(simpl; lia) ltac:(simpl; lia) N0 N0 E).
    apply neg_sdr_neg_inf. right. eexists. split; [reflexivity|]. unfold dot, smp. simpl. lra.
Qed.

(** ** C16: wrap-around for filters longer than the signals *)
Theorem aliasing : exists x : list R,
  let nf := n_fft (length x) (length x) in
  length x = 2 /\ nf = 4 /\ xcorr x x 3 = 0%R /\ nth 3 (stats_acf nf 4 x) 0%R = 1%R.
Proof.
  exists [1; 1]%R. split; auto. split; [reflexivity|]. split.
  - unfold xcorr, smp. simpl. ring.
  - change (n_fft (length [1; 1]%R) (length [1; 1]%R)) with 4.
    rewrite stats_acf_circ by lia. simpl. ring.
Qed.
(** ... which makes the system of a non-silent reference singular *)
Theorem aliasing_raises b sp cs est : a_len est = 2 ->
  sdr b sp (plain_opts 4) cs (rarr 2 [[1; 1]]%R) est = Raise LinAlgError.
Proof.
  intros He. unfold sdr, pairwise_sdr_loss.
  assert (E : sdr_coh b (plain_opts 4) (rarr 2 [[1; 1]]%R) est = Raise LinAlgError).
  { rewrite sdr_coh_unfold by (simpl; lia). rewrite He. change (a_len (rarr 2 [[1; 1]]%R)) with 2.
    change (n_fft 2 2) with 4. cbn [zero_mean plain_opts use_cg_iter load_diag filter_length].
    destruct (has_chan_pchan false (rarr 2 [[1; 1]]%R) 0 [1; 1]%R) as [P _].
    { apply rarr_wf; [lia|repeat constructor]. }
    { apply (rarr_chan 2 [[1; 1]]%R 0). simpl. lia. }
    change (prep_arr false (rarr 2 [[1; 1]]%R)) with [pchan false (rarr 2 [[1; 1]]%R) 0].
    rewrite P. cbn [mapM]. set (x := unit_of (pre false [1; 1]%R)).
    match goal with |- bind ?r _ = _ => destruct r as [row|e] eqn:Er end.
    - exfalso. apply coh_row_inv in Er. destruct Er as (_ & HN & _).
      apply row_nonsingular in HN. change (Nat.min 4 4) with 4 in HN. change (loadv None) with 0%R in HN.
      pose proof (HN (fun k => nth k [1; -1; 1; -1]%R 0%R)) as Hk.
      assert (X : (1 = 0)%R); [|lra].
      refine (Hk _ 0 ltac:(lia)). clear Hk HN.
      intros i Hi. rewrite gram_mv by auto.
      rewrite (dot_ext 4 _ (cdelayed 4 x i) _ (fun _ => 0%R)); auto.
      + unfold dot. rewrite Rsum_zero; [ring|intros; ring].
      + intros t Ht. unfold comb. simpl. unfold cdelayed.
        assert (E0 : nth 0 x 0%R = nth 1 x 0%R).
        { unfold x. change (nth 0 ?l 0%R) with (smp l 0). change (nth 1 ?l 0%R) with (smp l 1).
          rewrite !smp_unit_of. unfold smp. simpl. reflexivity. }
        assert (E2 : forall k, 2 <= k -> nth k x 0%R = 0%R).
        { intros k Hk. apply nth_overflow. unfold x. rewrite length_unit_of. simpl. lia. }
        destruct t as [|[|[|[|t]]]]; try lia; simpl; rewrite ?E0, ?(E2 2), ?(E2 3) by lia; ring.
    - apply coh_row_raise in Er. destruct Er as [-> _]. reflexivity. }
  rewrite E. reflexivity.
Qed.

(** ** C24: no scale invariance below 1e-6 *)
Definition tiny : R := (/ 10 ^ 7)%R.
Lemma unit_tiny : unit_of [tiny] = [(/ 10)%R].
Proof.
  unfold unit_of, gain. simpl. f_equal.
  assert (N : norm2 [tiny] = tiny).
  { unfold norm2. simpl. unfold smp. simpl.
    replace (0 + tiny * (tiny * 1))%R with (tiny * tiny)%R by ring. apply sqrt_square.
    unfold tiny. left. apply Rinv_0_lt_compat. apply pow_lt. lra. }
  rewrite N. unfold norm_eps, tiny. rewrite Rmax_right.
  - field.
  - apply Rinv_le_contravar; [apply pow_lt; lra|]. apply Rle_pow; [lra|lia].
Qed.
Theorem scale_changes b : exists m m',
  pairwise_sdr_loss b (plain_opts 1) (rarr 1 [[tiny]]) (rarr 1 [[1%R]]) = Ok m /\
  pairwise_sdr_loss b (plain_opts 1) (rarr 1 [[(10 ^ 7 * tiny)%R]]) (rarr 1 [[1%R]]) = Ok m' /\
  mat_of m' 0 0 = NInf /\ exists v, mat_of m 0 0 = Fin v /\ (0 < v)%R.
Proof.
  assert (N1 : norm2 [1%R] = 1%R) by (apply norm2_one; simpl; unfold smp; simpl; ring).
  assert (E7 : (10 ^ 7 * tiny)%R = 1%R) by (unfold tiny; field). rewrite E7.
  destruct (coh1_ok b (plain_opts 1) 1 [[1%R]] [[tiny]] eq_refl) as (m & E).
  destruct (coh1_ok b (plain_opts 1) 1 [[1%R]] [[1%R]] eq_refl) as (m' & E').
  assert (HF : forall v : R, Forall (fun v : list R => length v = 1) [[v]]) by (repeat constructor).
  unfold pairwise_sdr_loss. rewrite E, E'. cbn [bind]. do 2 eexists.
  split; [reflexivity|]. split; [reflexivity|]. split.
  - rewrite mat_of_to_db.
    rewrite (coh1 b (plain_opts 1) 1 _ _ m' 0 0 eq_refl eq_refl ltac:(lia) (HF _) (HF _) ltac:(simpl; lia) ltac:(simpl; lia) N1 N1 E').
    apply neg_sdr_neg_inf. right. eexists. split; [reflexivity|]. unfold dot, smp. simpl. lra.
  - rewrite mat_of_to_db.
    pose proof (rarr_wf 1 [[1%R]] ltac:(lia) (HF _)) as W1. pose proof (rarr_wf 1 [[tiny]] ltac:(lia) (HF _)) as Wt.
    destruct (has_chan_pchan false _ 0 _ W1 (rarr_chan 1 [[1%R]] 0 ltac:(simpl; lia))) as [P1 _].
    destruct (has_chan_pchan false _ 0 _ Wt (rarr_chan 1 [[tiny]] 0 ltac:(simpl; lia))) as [Pt _].
    rewrite (sdr_entry1 b (plain_opts 1) _ _ m 0 0 _ _ W1 Wt E eq_refl eq_refl P1 Pt).
    simpl nth. simpl pre. rewrite unit_tiny, (unit_of_one [1%R] N1).
    replace (dot (a_len (rarr 1 [[1%R]])) (smp [1%R]) (smp [(/ 10)%R]) ^ 2)%R with (/ 100)%R
      by (unfold dot, smp; simpl; field).
    simpl clamp_db. rewrite neg_sdr_fin by lra. eexists. split; [reflexivity|].
    replace ((1 - / 100) / / 100)%R with 99%R by field.
    apply Rmult_lt_0_compat; [lra|]. apply Rdiv_lt_0_compat; rewrite <- ln_1; apply ln_increasing; lra.
Qed.

(** ** C29: load_diag and filter_length = 1 *)
Theorem len1_ignores_load b o ref est ld : filter_length o = 1 ->
  sdr_coh b (with_load o ld) ref est = sdr_coh b o ref est.
Proof. intros H. unfold sdr_coh. simpl. rewrite H. reflexivity. Qed.
Theorem len1_load_loss b o ref est ld : filter_length o = 1 ->
  pairwise_sdr_loss b (with_load o ld) est ref = pairwise_sdr_loss b o est ref.
Proof. intros H. unfold pairwise_sdr_loss. rewrite len1_ignores_load by auto. reflexivity. Qed.
Theorem len1_load_sdr b sp o cs ref est ld : filter_length o = 1 ->
  sdr b sp (with_load o ld) cs ref est = sdr b sp o cs ref est.
Proof. intros H. unfold sdr. rewrite len1_load_loss by auto. reflexivity. Qed.
(** SDR > SAR *)
Theorem len1_load_violates b : exists m sar,
  sq_cos b (Opts 1 None false (Some 30%R) (Some 1%R)) (rarr 1 [[1%R]]) (rarr 1 [[1%R]]) = Ok (m, sar) /\
  let '(nsdr, nsir, nsar) := bss_mats (Opts 1 None false (Some 30%R) (Some 1%R)) (m, sar) in
  nsdr 0 0 = Fin (- 30) /\ nsar 0 0 = Fin 0.
Proof.
  set (o := Opts 1 None false (Some 30%R) (Some 1%R)).
  assert (N1 : norm2 [1%R] = 1%R) by (apply norm2_one; simpl; unfold smp; simpl; ring).
  assert (HF : Forall (fun v : list R => length v = 1) [[1%R]]) by (repeat constructor).
  pose proof (rarr_wf 1 [[1%R]] ltac:(lia) HF) as W1.
  destruct (has_chan_pchan false _ 0 _ W1 (rarr_chan 1 [[1%R]] 0 ltac:(simpl; lia))) as [P1 _].
  simpl nth in P1. simpl pre in P1. rewrite (unit_of_one _ N1) in P1.
  destruct (bss_loaded_ok b o (rarr 1 [[1%R]]) (rarr 1 [[1%R]]) _ W1 W1 eq_refl ltac:(simpl; lra)
    ltac:(simpl; lia) ltac:(auto) (rarr_chans 1 [[1%R]])) as ([m sar] & E).
  exists m, sar. split; auto.
  pose proof (sq_cos_sdr b o _ _ ltac:(simpl; lia) (or_introl eq_refl) m sar E) as Es.
  destruct (sar_entry1 b o _ _ m sar 0 _ W1 W1 E eq_refl eq_refl
    (has_chans_clean false _ _ W1 (rarr_chans 1 [[1%R]])) ltac:(unfold n_chan; simpl; lia) P1) as (q & (h & Hh & Hq) & Eq).
  simpl. rewrite (sdr_entry1 b o _ _ m 0 0 _ _ W1 W1 Es eq_refl eq_refl P1 P1). rewrite Eq.
  assert (Hq2 : q = (/ 2)%R).
  { specialize (Hh 0 ltac:(unfold n_chan; simpl; lia)).
    unfold mulmv, gram, qval in *. change (n_chan (rarr 1 [[1%R]])) with 1 in *.
    change (a_len (rarr 1 [[1%R]])) with 1 in *. change (zero_mean o) with false in *.
    assert (Epc : pc false (rarr 1 [[1%R]]) 0 = [1%R]) by (unfold pc; rewrite P1; reflexivity).
    simpl in Hh, Hq. rewrite Epc in *. unfold dot, smp in *. simpl in *. lra. }
  clear Hq. subst q. split.
  - replace (dot (a_len (rarr 1 [[1%R]])) (smp [1%R]) (smp [1%R]) ^ 2)%R with 1%R by (unfold dot, smp; simpl; ring).
    apply clamp_high. lra.
  - rewrite clamp_saturates by (try lra; discriminate). rewrite neg_sdr_fin by lra.
    unfold gdb. replace ((1 - / 2) / / 2)%R with 1%R by field. rewrite log10_1, Rmult_0_r.
    rewrite xmax_fin, xmin_fin, Rmax_right, Rmin_right by lra. reflexivity.
Qed.
