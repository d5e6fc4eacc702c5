(** * The fast path for filter_length = 1 against the general method, whole matrix (C28) *)
From Coq Require Import Reals Lra.
From Verif Require Import Prelude ExtReal Slice Sums SpecSig Helpers Linalg LinalgProofs Cgd Metrics StatsProofs LeastSq
  PrepProofs MetricsProofs SarProofs ProjTheorems MetricTheorems CgdPrecond CgTheorems Cells Glue Witness SigExamples.
Local Open Scope nat_scope.

(** What the general branch of sdr_loss (numpy/metrics.py:250-282) would compute with
    filter_length = 1, no loading and the direct solver. *)
Definition general_len1 (b : backend) (zm : bool) (ref est : arr) : res (list (list xr)) :=
  let nf := n_fft (a_len ref) (a_len est) in
  mapM (fun x : chan => match x with
    | None => Ok (map (fun _ => NaN) (prep_arr zm est))
    | Some v => coh_row b None (stats_acf nf 1 v) (stats_xcorr nf 1 v) (prep_arr zm est)
    end) (prep_arr zm ref).

Theorem fast_path_loss b o ref est : wf ref -> wf est -> filter_length o = 1 -> a_len ref = a_len est ->
  (forall c x, has_chan ref c x -> (norm_eps <= norm2 (pre (zero_mean o) x))%R) ->
  sdr_coh b o ref est = general_len1 b (zero_mean o) ref est.
Proof.
  intros Hwr Hwe E1 El Hn. unfold sdr_coh, general_len1. rewrite E1. cbn [Nat.eqb]. cbv zeta.
  unfold bc_len. rewrite <- El, Nat.eqb_refl. cbn [bind]. unfold len1_sdr. symmetry.
  set (nf := n_fft (a_len ref) (a_len ref)). set (n := a_len ref).
  assert (Hpos : 0 < n) by apply Hwr.
  assert (Hnf : n <= nf) by (apply nf_ge_ref; auto).
  apply mapM_ok. intros [v|] Hv.
  2:{ reflexivity. }
  destruct (in_pchan _ _ _ Hv) as (c & Ec & Hc).
  destruct (pchan_inv _ _ _ _ Hwr Ec) as (x & Ex & Lx & ->).
  assert (Hx : has_chan ref c x) by (split; auto).
  pose proof (Hn c x Hx) as Hnorm.
  assert (Lv : length (pre (zero_mean o) x) = n) by (rewrite length_pre; auto).
  set (u := unit_of (pre (zero_mean o) x)) in *.
  rewrite (coh_row_cells b None (stats_acf nf 1 u) (stats_xcorr nf 1 u)) by (intros; apply (stats_len nf 1 None)).
  (* one row at a time *)
  assert (S : forall w, length w = n -> coh_row b None (stats_acf nf 1 u) (stats_xcorr nf 1 u) [Some w] = Ok [Fin (ip n u w ^ 2)%R]).
  { intros w Hw. apply len1_general; auto; [unfold u; rewrite length_unit_of; auto|].
    apply energy_unit_1; auto. lia. }
  assert (S' : forall w, length w = n ->
     (do _ <- solvable None (length (stats_acf nf 1 u)) (ent (toeplitz NumPy (stats_acf nf 1 u)));
      Ok [Fin (sdr_cell None (stats_acf nf 1 u) (stats_xcorr nf 1 u w))]) = Ok [Fin (ip n u w ^ 2)%R]).
  { intros w Hw. rewrite <- (S w Hw). symmetry. apply (coh_row_cells b None). intros; apply (stats_len nf 1 None). }
  destruct (solvable None (length (stats_acf nf 1 u)) (ent (toeplitz NumPy (stats_acf nf 1 u)))) as [t|e] eqn:Es.
  - cbn [bind]. f_equal. apply map_ext_in. intros [w|] Hw; auto. cbn [vcell lift2]. f_equal.
    destruct (in_pchan _ _ _ Hw) as (d & Ed & _).
    pose proof (pchan_length _ _ _ _ Hwe Ed) as Lw. rewrite <- El in Lw.
    specialize (S' w Lw). cbn [bind] in S'. injection S' as S'. exact S'.
  - exfalso. specialize (S' u). cbn [bind] in S'. discriminate S'. unfold u. rewrite length_unit_of. auto.
Qed.

Lemma ex_ref_norms c x : has_chan ex_ref c x -> (norm_eps <= norm2 (pre (zero_mean (plain_opts 1)) x))%R.
Proof.
  intros [Hc E]. change (c < 2) in Hc. pose proof (ex_ref_chan c Hc) as [_ E']. rewrite E' in E.
  assert (x = exr c).
  { apply (f_equal (map (fun v => match v with Fin r => r | _ => 0%R end))) in E. rewrite !map_map, !map_id in E. auto. }
  subst x. cbn [pre zero_mean plain_opts]. rewrite norm2_one.
  - unfold norm_eps. simpl. lra.
  - revert c Hc E E'. apply (two (fun c => _ -> _ -> _ = _)); intros; unfold smp; simpl; ring.
Qed.

(** ** The linear systems behind the returned coherences, with loading (C17) *)
Theorem sdr_solved b o ref est m c d x y M : wf ref -> wf est ->
  use_cg_iter o = None -> 2 <= filter_length o <= Nat.max (a_len ref) (a_len est) ->
  has_chan ref c x -> has_chan est d y -> a_len ref + filter_length o - 1 <= M ->
  sdr_coh b o ref est = Ok m ->
  let a := delayed (unit_of (pre (zero_mean o) x)) in
  let v := smp (unit_of (pre (zero_mean o) y)) in
  exists h, (forall i, i < filter_length o ->
      Rsum (filter_length o) (fun j => (dot M (a i) (a j) + if Nat.eqb i j then loadv (load_diag o) else 0) * h j)%R = dot M (a i) v) /\
    mat_of m c d = Fin (Rsum (filter_length o) (fun i => dot M (a i) v * h i)%R).
Proof.
  intros Hwr Hwe Hcg HL Hx Hy HM H a v.
  destruct (has_chan_pchan (zero_mean o) ref c x Hwr Hx) as [Px Lx].
  destruct (has_chan_pchan (zero_mean o) est d y Hwe Hy) as [Py Ly].
  assert (H0 : 0 < a_len ref) by apply Hwr.
  pose proof (n_fft_ge (a_len ref) (a_len est) H0) as Hnf.
  destruct (sdr_entry b o ref est m c d _ _ H Hcg ltac:(lia) (proj1 Hx) (proj1 Hy) Px Py) as (q & Hq & Eq).
  rewrite Nat.min_l in Hq by lia.
  assert (Lu : length (unit_of (pre (zero_mean o) x)) = a_len ref) by (rewrite length_unit_of, length_pre; auto).
  apply (lsq_plain _ _ _ _ M) in Hq; [|lia|rewrite Lu; lia|rewrite Lu; lia].
  destruct Hq as (h & Hn & Hv). exists h. split; [exact Hn|]. rewrite Eq, Hv. reflexivity.
Qed.
Theorem sar_solved b o ref est m sar d xs y M : wf ref -> wf est ->
  use_cg_iter o = None -> 2 <= filter_length o <= Nat.max (a_len ref) (a_len est) ->
  has_chans ref xs -> has_chan est d y -> a_len ref + filter_length o - 1 <= M ->
  sq_cos b o ref est = Ok (m, sar) ->
  let N := filter_length o * n_chan ref in
  let a := fun p => delayed (unit_of (pre (zero_mean o) (xs (p mod n_chan ref)))) (p / n_chan ref) in
  let v := smp (unit_of (pre (zero_mean o) y)) in
  exists h, (forall i, i < N ->
      Rsum N (fun j => (dot M (a i) (a j) + if Nat.eqb i j then loadv (load_diag o) else 0) * h j)%R = dot M (a i) v) /\
    nth d sar NaN = Fin (Rsum N (fun i => dot M (a i) v * h i)%R).
Proof.
  intros Hwr Hwe Hcg HL Hx Hy HM H N a v.
  destruct (has_chan_pchan (zero_mean o) est d y Hwe Hy) as [Py Ly].
  pose proof (has_chans_clean (zero_mean o) ref xs Hwr Hx) as Hcl.
  assert (H0 : 0 < a_len ref) by apply Hwr.
  pose proof (n_fft_ge (a_len ref) (a_len est) H0) as Hnf.
  assert (Hlen : forall c, c < n_chan ref -> length (pc (zero_mean o) ref c) = a_len ref).
  { intros c Hc. apply (pchan_length (zero_mean o) ref c); auto. apply clean_pc; auto. }
  destruct (sar_entry b o ref est m sar d _ H Hcg (proj1 HL) Hcl (proj1 Hy) Py) as (HLn & q & Hq & Eq).
  assert (Hq' : lsq N M a (loadv (load_diag o)) v q).
  { apply (lsq_all_plain _ _ _ _ _ M _ _ (a_len ref)) in Hq; try exact Hlen; try lia.
    eapply lsq_ext; [| |exact Hq].
    - intros i j Hi Hj. destruct (lag_split _ _ _ Hi) as (l & c & Hl & Hc & ->).
      destruct (lag_split _ _ _ Hj) as (l' & c' & Hl' & Hc' & ->).
      unfold all_delays, a. rewrite !lag_div, !lag_mod by auto. rewrite !(has_chans_pc _ _ xs) by auto. reflexivity.
    - intros i Hi. destruct (lag_split _ _ _ Hi) as (l & c & Hl & Hc & ->).
      unfold all_delays, a. rewrite !lag_div, !lag_mod by auto. rewrite !(has_chans_pc _ _ xs) by auto. reflexivity. }
  destruct Hq' as (h & Hn & Hv). exists h. split; [exact Hn|]. rewrite Eq, Hv. reflexivity.
Qed.
