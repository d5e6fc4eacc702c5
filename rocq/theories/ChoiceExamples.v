(** * Concrete cases for [Choice.v]: the references [1 0 0 0 0] and [0 0 1 0 0], one tap *)
From Coq Require Import Reals Lra.
From Verif Require Import Prelude ExtReal Spec SpecSig Sums Helpers PermProofs DbProofs Metrics StatsProofs LeastSq PrepProofs MetricsProofs SarProofs
  ProjTheorems MetricTheorems Outputs Solvability Witness SigExamples Recover RecoverExamples Choice.
Local Open Scope nat_scope.

Lemma ex_shifts1 : shifts 1 5 2 exr.
Proof.
  intros g Hg k Hk. specialize (Hg (2 * k)). destruct k as [|[|k]]; try (simpl in Hk; lia); simpl in Hg; specialize (Hg ltac:(lia)); revert Hg;
    unfold comb, all_delays, delayed, smp; simpl; lra.
Qed.

(** An estimate [p, u, q, v, w]: its projection on both references is [p, 0, q, 0, 0]. *)
Section One.
Variables (ys : nat -> list R) (k : nat).
Let est : arr := rarr 5 (tab k ys).
Hypothesis Hk : 0 < k.
Hypothesis Hlen : forall d, d < k -> length (ys d) = 5.
Hypothesis Hbig : forall d, d < k -> (norm_eps <= norm2 (ys d))%R.

Lemma est_wf : wf est.
Proof. apply rarr_wf; [lia|]. apply Forall_forall. intros v Hv. unfold tab in Hv. apply in_map_iff in Hv.
  destruct Hv as (d & <- & Hd). apply in_seq in Hd. apply Hlen. lia. Qed.
Lemma est_nchan : n_chan est = k.
Proof. unfold n_chan, est, rarr. simpl. now rewrite map_length, length_tab. Qed.
Lemma est_chan d : d < k -> has_chan est d (ys d).
Proof.
  intros H. assert (E : nth d (tab k ys) [] = ys d) by (rewrite nth_tab; auto). rewrite <- E. apply rarr_chan. now rewrite length_tab.
Qed.
Lemma est_chans : has_chans est ys.
Proof. intros d Hd. rewrite est_nchan in Hd. apply est_chan. auto. Qed.
Lemma est_sq_ok b : is_ok (sq_cos b (plain_opts 1) ex_ref est).
Proof.
  apply (bss_solvable_iff b (plain_opts 1) ex_ref est exr ex_ref_wf est_wf eq_refl eq_refl
    ltac:(simpl; lia) ltac:(reflexivity) ex_ref_chans). apply ex_shifts1.
Qed.
Definition part_on (c : nat) (y : list R) : list R := if Nat.eqb c 0 then [nth 0 y 0; 0; 0; 0; 0]%R else [0; 0; nth 2 y 0; 0; 0]%R.
Definition part_all (y : list R) : list R := [nth 0 y 0; 0; nth 2 y 0; 0; 0]%R.
Lemma one_mats b m sar c d : sq_cos b (plain_opts 1) ex_ref est = Ok (m, sar) -> c < 2 -> d < k ->
  let '(nsdr, nsir, nsar) := bss_mats (plain_opts 1) (m, sar) in
  let q := (if Nat.eqb c 0 then nth 0 (ys d) 0 ^ 2 else nth 2 (ys d) 0 ^ 2)%R in
  let a := (nth 0 (ys d) 0 ^ 2 + nth 2 (ys d) 0 ^ 2)%R in
  let e := Rsum 5 (fun t => smp (ys d) t ^ 2)%R in
  nsdr c d = dB (e - q)%R q /\ (a <> 0%R -> nsir c d = dB (a - q)%R q).
Proof.
  intros H Hc Hd.
  pose proof (sir_sar_projection b (plain_opts 1) ex_ref est m sar c d exr (ys d) 5 (smp (part_all (ys d))) (smp (part_on c (ys d)))
    ex_ref_wf est_wf eq_refl eq_refl eq_refl ltac:(simpl; lia)) as P.
  specialize (P ltac:(intros _; split; [reflexivity|apply ex_ref_norm; auto]) ex_ref_chans Hc (est_chan d Hd) (Hbig d Hd) ltac:(simpl; lia) ltac:(simpl; lia)).
  assert (P1 : is_projection (filter_length (plain_opts 1) * n_chan ex_ref) 5
     (all_delays (n_chan ex_ref) (fun c => pre (zero_mean (plain_opts 1)) (exr c))) (smp (pre (zero_mean (plain_opts 1)) (ys d))) (smp (part_all (ys d)))).
  { split.
    - exists (fun i => nth (2 * i) (ys d) 0%R). intros t Ht. destruct t as [|[|[|[|[|t]]]]]; try lia; unfold comb, part_all, all_delays, delayed, smp; simpl; ring.
    - intros i Hi. change (filter_length (plain_opts 1) * n_chan ex_ref) with 2 in Hi.
      destruct i as [|[|i]]; try lia; unfold dot, part_all, all_delays, delayed, smp; simpl; ring. }
  assert (P2 : is_projection (filter_length (plain_opts 1)) 5 (delays (pre (zero_mean (plain_opts 1)) (exr c)))
     (smp (pre (zero_mean (plain_opts 1)) (ys d))) (smp (part_on c (ys d)))).
  { split.
    - exists (fun i => nth (2 * c) (ys d) 0%R). intros t Ht. destruct c as [|[|c]]; try lia;
        destruct t as [|[|[|[|[|t]]]]]; try lia; unfold comb, part_on, delays, delayed, smp; simpl; ring.
    - intros i Hi. change (filter_length (plain_opts 1)) with 1 in Hi.
      destruct c as [|[|c]]; try lia; destruct i as [|i]; try lia; unfold dot, part_on, delays, delayed, smp; simpl; ring. }
  specialize (P P1 P2 H). destruct (bss_mats (plain_opts 1) (m, sar)) as [[nsdr nsir] nsar]. destruct P as (E1 & _ & E3 & _).
  cbv zeta. split.
  - rewrite E1. f_equal; destruct c as [|[|c]]; try lia; unfold energy, dot, part_on, smp; simpl; ring.
  - intros N. rewrite E3.
    + f_equal; destruct c as [|[|c]]; try lia; unfold energy, dot, part_on, part_all, smp; simpl; ring.
    + unfold energy, dot, part_all, smp. simpl. intros Z. apply N. etransitivity; [|exact Z]. ring.
Qed.
End One.

(** ** Different permutations *)
Definition dif (d : nat) : list R := nth d [[1; 0; 3; 0; 0]; [1; 9; 4; 1; 1]]%R [].
Definition dif_est : arr := rarr 5 (tab 2 dif).
Lemma dif_len d : d < 2 -> length (dif d) = 5.
Proof. intros H. destruct d as [|[|d]]; try lia; reflexivity. Qed.
Lemma dif_big d : d < 2 -> (norm_eps <= norm2 (dif d))%R.
Proof. intros H. apply norm2_big. destruct d as [|[|d]]; try lia; unfold smp; simpl; lra. Qed.
Definition dif_sdr (c d : nat) : R := nth d (nth c [[9 / 1; 99 / 1]; [1 / 9; 84 / 16]] [])%R 0%R.
Definition dif_sir (c d : nat) : R := nth d (nth c [[9 / 1; 16 / 1]; [1 / 9; 1 / 16]] [])%R 0%R.
Lemma dif_mats b m sar c d : sq_cos b (plain_opts 1) ex_ref dif_est = Ok (m, sar) -> c < 2 -> d < 2 ->
  let '(nsdr, nsir, nsar) := bss_mats (plain_opts 1) (m, sar) in
  nsdr c d = Fin (10 * log10 (dif_sdr c d)) /\ nsir c d = Fin (10 * log10 (dif_sir c d)).
Proof.
  intros H Hc Hd. pose proof (one_mats dif 2 ltac:(lia) dif_len dif_big b m sar c d H Hc Hd) as P.
  destruct (bss_mats (plain_opts 1) (m, sar)) as [[nsdr nsir] nsar]. cbv zeta in P. destruct P as [P1 P2].
  rewrite P1, P2.
  2:{ destruct d as [|[|d]]; try lia; simpl; lra. }
  destruct c as [|[|c]]; try lia; destruct d as [|[|d]]; try lia; unfold dif_sdr, dif_sir, dif, smp; simpl;
    rewrite !dB_pos by lra; split; fin_eq.
Qed.
Lemma log10_mult a c : (0 < a)%R -> (0 < c)%R -> (10 * log10 a + 10 * log10 c = 10 * log10 (a * c))%R.
Proof. intros. unfold log10. rewrite ln_mult by auto. field. assert (0 < ln 10)%R by (rewrite <- ln_1; apply ln_increasing; lra). lra. Qed.
Lemma two_perms (p : list nat) : length p = 2 -> NoDup p -> (forall x, In x p -> x < 2) -> p = [0; 1] \/ p = [1; 0].
Proof.
  destruct p as [|a [|c [|? ?]]]; try discriminate. intros _ N B. inversion N as [|? ? N1 _]; subst.
  pose proof (B a (or_introl eq_refl)). pose proof (B c (or_intror (or_introl eq_refl))).
  assert (a <> c) by (intros ->; apply N1; simpl; auto).
  destruct a as [|[|a]]; try lia; destruct c as [|[|c]]; try lia; auto.
Qed.
Theorem dif_perms b sp : lsa_contract sp -> exists vals s i a,
  sdr b sp (plain_opts 1) false ex_ref dif_est = Ok (vals, [1; 0]) /\
  bss_eval_sources b sp (plain_opts 1) ex_ref dif_est = Ok (s, i, a, [0; 1]).
Proof.
  intros Hsp. destruct (est_sq_ok dif 2 ltac:(lia) dif_len b) as [[m sar] Em]. change (rarr 5 (tab 2 dif)) with dif_est in Em.
  pose proof (fun c d Hc Hd => dif_mats b m sar c d Em Hc Hd) as P.
  pose proof (bss_optimal b sp (plain_opts 1) ex_ref dif_est (m, sar) Hsp Em) as BO.
  destruct (pairwise_sdr_loss b (plain_opts 1) dif_est ex_ref) as [loss|e] eqn:HP.
  2:{ apply (sq_cos_sdr' b (plain_opts 1) ex_ref dif_est m sar) in Em; [|simpl; lia]. unfold pairwise_sdr_loss in HP. rewrite Em in HP. discriminate. }
  pose proof (sdr_of_bss b (plain_opts 1) ex_ref dif_est m sar loss ltac:(simpl; lia) Em HP) as El.
  destruct (bss_mats (plain_opts 1) (m, sar)) as [[nsdr nsir] nsar] eqn:EM.
  assert (Q : forall c d, c < 2 -> d < 2 -> mat_of loss c d = Fin (10 * log10 (dif_sdr c d))).
  { intros c d Hc Hd. rewrite <- (proj1 (P c d Hc Hd)). unfold bss_mats, base_metrics in EM. injection EM as <- _ _. rewrite El, to_db_entry. reflexivity. }
  assert (F : forall r e, r < n_chan ex_ref -> e < n_chan dif_est -> is_fin (mat_of loss r e) = true) by (intros r e Hr He; rewrite Q by auto; reflexivity).
  assert (G : forall r e, r < n_chan ex_ref -> e < n_chan dif_est -> is_fin (nsir r e) = true) by (intros r e Hr He; rewrite (proj2 (P r e Hr He)); reflexivity).
  destruct (sdr_optimal b sp (plain_opts 1) ex_ref dif_est loss Hsp HP F) as (vals & perm & ES & OS).
  destruct (BO G) as (s & i & a & perm' & EB & _).
  assert (W : complete_assignment 2 2 [(0, 1); (1, 0)]).
  { split; [reflexivity|]. split; [|split; simpl; repeat constructor; simpl; intuition lia].
    intros r e [X|[X|[]]]; injection X as <- <-; lia. }
  specialize (OS _ W).
  destruct (sdr_outputs b sp (plain_opts 1) false ex_ref dif_est vals perm Hsp ES) as (l' & El' & _ & L1 & N1 & B1 & Ev). rewrite HP in El'. injection El' as <-.
  assert (perm = [1; 0]) as ->.
  { destruct (two_perms perm L1 N1 B1) as [->| ->]; auto. exfalso. rewrite Ev in OS.
    change (matching (n_chan ex_ref) (n_chan dif_est) [0; 1]) with [(0, 0); (1, 1)] in OS. cbn [map sumR at_pair fst snd] in OS.
    unfold at_pair in OS. cbn [fst snd] in OS. rewrite !Q in OS by lia. cbn [xneg to_R] in OS.
    pose proof (log10_mult (dif_sdr 0 1) (dif_sdr 1 0) ltac:(unfold dif_sdr; simpl; lra) ltac:(unfold dif_sdr; simpl; lra)) as L2.
    pose proof (log10_mult (dif_sdr 0 0) (dif_sdr 1 1) ltac:(unfold dif_sdr; simpl; lra) ltac:(unfold dif_sdr; simpl; lra)) as L3.
    pose proof (log10_lt (dif_sdr 0 1 * dif_sdr 1 0) (dif_sdr 0 0 * dif_sdr 1 1) ltac:(unfold dif_sdr; simpl; lra)) as L4. lra. }
  destruct (bss_solved b sp (plain_opts 1) ex_ref dif_est s i a perm' EB) as (c' & Ec' & SB). rewrite Em in Ec'. injection Ec' as <-.
  rewrite EM in SB. destruct SB as (out & outs & SB).
  exists vals, s, i, a. split; auto. rewrite EB. f_equal. f_equal.
  change [0; 1] with (map (fun x : nat => x) (seq 0 2)).
  apply (recover_rows b sp 2 2 nsir _ _ _ _ (fun x => x) Hsp SB); auto.
  intros r e Hr He Hne. rewrite (proj2 (P r r Hr Hr)), (proj2 (P r e Hr He)). apply xlt_fin, log10_lt.
  destruct r as [|[|r]]; try lia; destruct e as [|[|e]]; try lia; unfold dif_sir; simpl; lra.
Qed.

(** ** Estimates without artifacts *)
Definition mix (d : nat) : list R := nth d [[2; 0; 1; 0; 0]; [1; 0; 3; 0; 0]]%R [].
Definition mix_est : arr := rarr 5 (tab 2 mix).
Lemma mix_len d : d < 2 -> length (mix d) = 5.
Proof. intros H. destruct d as [|[|d]]; try lia; reflexivity. Qed.
Lemma mix_big d : d < 2 -> (norm_eps <= norm2 (mix d))%R.
Proof. intros H. apply norm2_big. destruct d as [|[|d]]; try lia; unfold smp; simpl; lra. Qed.
Lemma mix_clean : no_artifacts (plain_opts 1) 5 ex_ref mix_est exr mix.
Proof.
  intros d Hd. change (n_chan mix_est) with 2 in Hd. split; [apply mix_big; auto|].
  exists (fun i => nth (2 * i) (mix d) 0%R). intros t Ht.
  destruct d as [|[|d]]; try lia; destruct t as [|[|[|[|[|t]]]]]; try lia; unfold comb, all_delays, delayed, smp; simpl; ring.
Qed.
(** Both functions return something for the estimates [ys]. *)
Lemma both_ok b sp ys k : lsa_contract sp -> 0 < k -> (forall d, d < k -> length (ys d) = 5) -> (forall d, d < k -> (norm_eps <= norm2 (ys d))%R) ->
  (forall c d, c < 2 -> d < k -> let q := (if Nat.eqb c 0 then nth 0 (ys d) 0 ^ 2 else nth 2 (ys d) 0 ^ 2)%R in
     let a := (nth 0 (ys d) 0 ^ 2 + nth 2 (ys d) 0 ^ 2)%R in (0 < q < a)%R /\ (a <= Rsum 5 (fun t => smp (ys d) t ^ 2))%R) ->
  exists vals s i a perm perm',
  sdr b sp (plain_opts 1) false ex_ref (rarr 5 (tab k ys)) = Ok (vals, perm) /\
  bss_eval_sources b sp (plain_opts 1) ex_ref (rarr 5 (tab k ys)) = Ok (s, i, a, perm').
Proof.
  intros Hsp Hk Hl Hb Hq. destruct (est_sq_ok ys k Hk Hl b) as [[m sar] Em].
  set (est := rarr 5 (tab k ys)) in *. assert (NK : n_chan est = k) by apply est_nchan.
  pose proof (fun c d Hc Hd => one_mats ys k Hk Hl Hb b m sar c d Em Hc Hd) as P.
  pose proof (bss_optimal b sp (plain_opts 1) ex_ref est (m, sar) Hsp Em) as BO.
  destruct (pairwise_sdr_loss b (plain_opts 1) est ex_ref) as [loss|e] eqn:HP.
  2:{ apply (sq_cos_sdr' b (plain_opts 1) ex_ref est m sar) in Em; [|simpl; lia]. unfold pairwise_sdr_loss in HP. rewrite Em in HP. discriminate. }
  pose proof (sdr_of_bss b (plain_opts 1) ex_ref est m sar loss ltac:(simpl; lia) Em HP) as El.
  destruct (bss_mats (plain_opts 1) (m, sar)) as [[nsdr nsir] nsar] eqn:EM. cbv zeta in P, Hq.
  assert (F : forall r e, r < n_chan ex_ref -> e < n_chan est -> is_fin (mat_of loss r e) = true).
  { intros r e Hr He. rewrite NK in He. destruct (P r e Hr He) as [E _]. destruct (Hq r e Hr He) as [Q1 Q2].
    replace (mat_of loss r e) with (nsdr r e).
    - rewrite E, dB_pos by lra. reflexivity.
    - unfold bss_mats, base_metrics in EM. injection EM as <- _ _. rewrite El, to_db_entry. reflexivity. }
  assert (G : forall r e, r < n_chan ex_ref -> e < n_chan est -> is_fin (nsir r e) = true).
  { intros r e Hr He. rewrite NK in He. destruct (P r e Hr He) as [_ E]. destruct (Hq r e Hr He) as [Q1 Q2]. rewrite E, dB_pos by lra. reflexivity. }
  destruct (sdr_optimal b sp (plain_opts 1) ex_ref est loss Hsp HP F) as (vals & perm & ES & _).
  destruct (BO G) as (s & i & a & perm' & EB & _). exists vals, s, i, a, perm, perm'. auto.
Qed.
Lemma mix_ok b sp : lsa_contract sp -> exists vals s i a perm perm',
  sdr b sp (plain_opts 1) false ex_ref mix_est = Ok (vals, perm) /\
  bss_eval_sources b sp (plain_opts 1) ex_ref mix_est = Ok (s, i, a, perm').
Proof.
  intros Hsp. apply (both_ok b sp mix 2 Hsp); auto using mix_len, mix_big; try lia.
  intros c d Hc Hd. destruct c as [|[|c]]; try lia; destruct d as [|[|d]]; try lia; unfold mix, smp; simpl; lra.
Qed.
(** one estimate *)
Definition mono_est : arr := rarr 5 (tab 1 exe).
Lemma mono_ok b sp : lsa_contract sp -> exists vals s i a perm perm',
  sdr b sp (plain_opts 1) false ex_ref mono_est = Ok (vals, perm) /\
  bss_eval_sources b sp (plain_opts 1) ex_ref mono_est = Ok (s, i, a, perm').
Proof.
  intros Hsp. apply (both_ok b sp exe 1 Hsp); try lia.
  - intros d Hd. assert (d = 0) as -> by lia. reflexivity.
  - intros d Hd. apply ex_est_norm. lia.
  - intros c d Hc Hd. assert (d = 0) as -> by lia. destruct c as [|[|c]]; try lia; unfold exe, smp; simpl; lra.
Qed.
