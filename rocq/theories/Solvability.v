(** * When bss_eval_sources can be computed; order of its outputs; PIT loss (C53, C21, C08) *)
From Coq Require Import Reals Lra.
From Coquelicot Require Import Complex.
From Verif Require Import Prelude ExtReal Slice Sums SpecSig Fft Helpers HelpersProofs PermProofs DbProofs Linalg
  LinalgProofs Cgd Metrics StatsProofs LeastSq PrepProofs MetricsProofs SarProofs ProjTheorems MetricTheorems
  CgdOps CgdPrecond Cells Diag Outputs Spec.
Local Open Scope nat_scope.

(** ** More vectors than dimensions are dependent *)
Theorem too_many_dependent K M a : M < K -> ~ independent K M a.
Proof.
  intros H Hi.
  set (B := fun t k => if t <? M then a k t else 0%R).
  assert (HB : nonsingular K B).
  { intros v Hv. apply Hi. intros t Ht. rewrite <- (Hv t) by lia. unfold comb. apply Rsum_ext. intros k _.
    unfold B. destruct (Nat.ltb_spec t M); [ring|lia]. }
  destruct (Rsolve_some K B (fun i => if Nat.eqb i M then 1 else 0)%R HB) as (x & Ex).
  pose proof (Rsolve_ok _ _ _ _ Ex M H) as E. cbv beta in E. rewrite Nat.eqb_refl in E.
  unfold Rmv in E. rewrite Rsum_zero in E; [lra|]. intros k _. unfold B.
  destruct (Nat.ltb_spec M M); [lia|ring].
Qed.
(** a repeated vector, or a zero vector, makes the family dependent *)
Lemma repeated_dependent K M a i j : i < K -> j < K -> i <> j ->
  (forall t, t < M -> a i t = a j t) -> ~ independent K M a.
Proof.
  intros Hi Hj Hij E H.
  assert (X : (fun k => if Nat.eqb k i then 1 else if Nat.eqb k j then -1 else 0)%R i = 0%R).
  { apply (H (fun k => if Nat.eqb k i then 1 else if Nat.eqb k j then -1 else 0)%R); auto.
    intros t Ht. unfold comb.
    rewrite (Rsum_ext K _ (fun k => (if Nat.eqb k i then a k t else 0) - (if Nat.eqb k j then a k t else 0))%R).
    - rewrite Rsum_minus, !Rsum_delta, E by auto. ring.
    - intros k _. destruct (Nat.eqb_spec k i), (Nat.eqb_spec k j); subst; try lia; ring. }
  cbv beta in X. rewrite Nat.eqb_refl in X. lra.
Qed.
Lemma zero_dependent K M a i : i < K -> (forall t, t < M -> a i t = 0%R) -> ~ independent K M a.
Proof.
  intros Hi E H.
  assert (X : (fun k => if Nat.eqb k i then 1 else 0)%R i = 0%R).
  { apply (H (fun k => if Nat.eqb k i then 1 else 0)%R); auto.
    intros t Ht. unfold comb.
    rewrite (Rsum_ext K _ (fun k => if Nat.eqb k i then a k t else 0)%R).
    - rewrite Rsum_delta by auto. auto.
    - intros k _. destruct (Nat.eqb_spec k i); subst; ring. }
  cbv beta in X. rewrite Nat.eqb_refl in X. lra.
Qed.
Lemma nonsingular_gram_iff K M a : nonsingular K (gram M a 0) <-> independent K M a.
Proof.
  split.
  - intros H g Hg. apply H. intros i Hi. rewrite gram_mv by auto.
    rewrite (dot_ext M _ (a i) _ (fun _ => 0%R)) by auto. unfold dot. rewrite Rsum_zero by (intros; ring). ring.
  - apply gram_nonsingular. apply Rle_refl.
Qed.

Lemma independent_ext K M a a' : (forall k t, k < K -> t < M -> a k t = a' k t) ->
  independent K M a -> independent K M a'.
Proof.
  intros E H g Hg. apply H. intros t Ht. rewrite <- (Hg t Ht). apply Rsum_ext. intros k Hk. rewrite E; auto.
Qed.
Lemma independent_scale K M a g : (forall k, k < K -> g k <> 0%R) ->
  (independent K M (fun k t => g k * a k t)%R <-> independent K M a).
Proof.
  intros Hg. split; intros H h Hh k Hk.
  - assert (E : (h k / g k = 0)%R).
    { apply (H (fun k => h k / g k)%R); auto. intros t Ht. rewrite <- (Hh t Ht). apply Rsum_ext.
      intros j Hj. field. auto. }
    replace (h k) with (h k / g k * g k)%R by (field; auto). rewrite E. ring.
  - assert (E : (h k * g k = 0)%R).
    { apply (H (fun k => h k * g k)%R); auto. intros t Ht. rewrite <- (Hh t Ht). apply Rsum_ext.
      intros j Hj. ring. }
    apply Rmult_integral in E. destruct E; auto. elim (Hg k Hk); auto.
Qed.
(** a larger time window does not matter once all delays fit *)
Lemma independent_window K M M' a : M <= M' -> (forall k t, k < K -> M <= t -> a k t = 0%R) ->
  (independent K M' a <-> independent K M a).
Proof.
  intros HM Hz. split; intros H g Hg; apply H; intros t Ht.
  - destruct (Nat.lt_ge_cases t M); auto. unfold comb. apply Rsum_zero. intros k Hk. rewrite Hz by auto. ring.
  - apply Hg. lia.
Qed.
Lemma independent_sub K K' M a a' (f : nat -> nat) : (forall k, k < K' -> f k < K) ->
  (forall k k', k < K' -> k' < K' -> f k = f k' -> k = k') ->
  (forall k t, k < K' -> t < M -> a' k t = a (f k) t) ->
  independent K M a -> independent K' M a'.
Proof.
  intros Hf Hinj He H g Hg k0 Hk0.
  set (G := fun j => Rsum K' (fun k => if Nat.eqb (f k) j then g k else 0)%R).
  assert (E : G (f k0) = g k0).
  { unfold G. rewrite (Rsum_ext K' _ (fun k => if Nat.eqb k k0 then g k else 0)%R).
    - apply Rsum_delta. auto.
    - intros k Hk. destruct (Nat.eqb_spec (f k) (f k0)), (Nat.eqb_spec k k0); subst; auto; try congruence.
      elim n. apply Hinj; auto. }
  rewrite <- E. apply H; auto. intros t Ht. rewrite <- (Hg t Ht). unfold comb, G.
  rewrite (Rsum_ext K _ (fun j => Rsum K' (fun k => (if Nat.eqb (f k) j then g k * a j t else 0)))%R).
  2:{ intros j _. rewrite <- Rsum_scal_r. apply Rsum_ext. intros k _. destruct (f k =? j); ring. }
  rewrite Rsum_swap. apply Rsum_ext. intros k Hk.
  rewrite (Rsum_ext K _ (fun j => if Nat.eqb j (f k) then g k * a j t else 0)%R).
  - rewrite Rsum_delta by auto. rewrite He; auto.
  - intros j _. rewrite Nat.eqb_sym. reflexivity.
Qed.

Lemma smp_over v t : length v <= t -> smp v t = 0%R.
Proof. intros H. apply nth_overflow. auto. Qed.
Lemma delayed_over v l t : length v + l <= t -> delayed v l t = 0%R.
Proof. intros H. unfold delayed. destruct (Nat.ltb_spec t l); auto. apply smp_over. lia. Qed.

(** ** The system of all references *)
(** all L delays of all references, in a window that holds them completely *)
Definition shifts (L N K : nat) (xs : nat -> list R) : Prop :=
  independent (L * K) (N + L - 1) (all_delays K xs).

Lemma shifts_unit L N K xs : (forall c, c < K -> length (xs c) = N) ->
  (shifts L N K (fun c => unit_of (xs c)) <-> shifts L N K xs).
Proof.
  intros Hl. unfold shifts. destruct K as [|K0]; [rewrite !Nat.mul_0_r; split; intros _ g _ k Hk; lia|].
  set (K := S K0) in *.
  rewrite <- (independent_scale (L * K) (N + L - 1) (all_delays K xs) (fun p => gain (xs (p mod K)))).
  - split; apply independent_ext; intros k t Hk Ht; unfold all_delays; rewrite delayed_unit; reflexivity.
  - intros k _. pose proof (gain_pos (xs (k mod K))). lra.
Qed.
Lemma circ_shifts nf L N K xs : (forall c, c < K -> length (xs c) = N) -> 0 < L -> 0 < N -> N + L - 1 <= nf ->
  (nonsingular (L * K) (gram nf (all_cdelays nf K xs) 0) <-> shifts L N K xs).
Proof.
  intros Hl HL HN Hnf. rewrite nonsingular_gram_iff. unfold shifts.
  assert (Hw : forall k t, k < L * K -> N + L - 1 <= t -> all_delays K xs k t = 0%R).
  { intros k t Hk Ht. destruct (lag_split _ _ _ Hk) as (l & c & Hl0 & Hc & ->). unfold all_delays.
    rewrite lag_div, lag_mod by auto. apply delayed_over. rewrite Hl by auto. lia. }
  rewrite <- (independent_window (L * K) (N + L - 1) nf (all_delays K xs) Hnf Hw).
  assert (E : forall k t, k < L * K -> t < nf -> all_cdelays nf K xs k t = all_delays K xs k t).
  { intros k t Hk Ht. destruct (lag_split _ _ _ Hk) as (l & c & Hl0 & Hc & ->).
    unfold all_cdelays, all_delays. rewrite lag_div, lag_mod by auto.
    apply cdelayed_plain; auto; rewrite ?Hl by auto; lia. }
  split; apply independent_ext; intros; [|symmetry]; apply E; auto.
Qed.

(** C53: without loading, the direct solver works exactly when the shifted references are independent. *)
Theorem bss_solvable_iff b o ref est xs : wf ref -> wf est ->
  use_cg_iter o = None -> loadv (load_diag o) = 0%R ->
  1 <= filter_length o <= Nat.max (a_len ref) (a_len est) ->
  (filter_length o = 1 -> a_len ref = a_len est) ->
  has_chans ref xs ->
  (forall e, sq_cos b o ref est = Raise e -> e = LinAlgError) /\
  (is_ok (sq_cos b o ref est) <->
   shifts (filter_length o) (a_len ref) (n_chan ref) (fun c => pre (zero_mean o) (xs c))).
Proof.
  intros Hwr Hwe Hcg Hld HL HL1 Hx.
  pose proof (has_chans_clean (zero_mean o) ref xs Hwr Hx) as Hcl.
  apply clean_tainted in Hcl as HT.
  assert (Hpos : 0 < a_len ref) by apply Hwr.
  assert (Hlen : forall c, c < n_chan ref -> length (pre (zero_mean o) (xs c)) = a_len ref).
  { intros c Hc. rewrite length_pre. apply (has_chan_pchan (zero_mean o) ref c (xs c) Hwr). apply has_chans_at; auto. }
  assert (Hlu : forall c, c < n_chan ref -> length (unit_of (pre (zero_mean o) (xs c))) = a_len ref)
    by (intros; rewrite length_unit_of; auto).
  assert (Hrc : forall c, c < n_chan ref -> rchan (prep_arr (zero_mean o) ref) c = unit_of (pre (zero_mean o) (xs c))).
  { intros c Hc. apply (has_chans_pc _ _ _ _ Hwr Hx Hc). }
  rewrite <- (shifts_unit _ _ _ _ Hlen).
  destruct (Nat.eq_dec (filter_length o) 1) as [E1|N1].
  - assert (El := HL1 E1).
    assert (HN : nonsingular (n_chan ref)
        (gram (a_len ref) (fun c => smp (rchan (prep_arr (zero_mean o) ref) c)) 0) <->
      shifts (filter_length o) (a_len ref) (n_chan ref) (fun c => unit_of (pre (zero_mean o) (xs c)))).
    { rewrite nonsingular_gram_iff. unfold shifts. rewrite E1, Nat.mul_1_l.
      replace (a_len ref + 1 - 1) with (a_len ref) by lia.
      split; apply independent_ext; intros c t Hc Ht; [|symmetry].
      all: unfold all_delays; rewrite Nat.div_small, Nat.mod_small by auto; rewrite Hrc by auto;
        unfold delayed; rewrite Nat.sub_0_r; reflexivity. }
    assert (Hln : forall c, c < length (prep_arr (zero_mean o) ref) ->
      length (rchan (prep_arr (zero_mean o) ref) c) = a_len ref).
    { intros c Hc. rewrite length_prep in Hc. rewrite Hrc by auto. auto. }
    assert (Eu : sq_cos b o ref est =
      do sar <- len1_sar (a_len ref) (a_len ref) (load_diag o) (prep_arr (zero_mean o) ref) (prep_arr (zero_mean o) est);
      Ok (len1_sdr (a_len ref) (prep_arr (zero_mean o) ref) (prep_arr (zero_mean o) est), sar)).
    { unfold sq_cos. rewrite E1. simpl Nat.eqb. cbn iota. unfold bc_len. rewrite <- El, Nat.eqb_refl. reflexivity. }
    rewrite Eu.
    destruct (len1_sar (a_len ref) (a_len ref) (load_diag o) (prep_arr (zero_mean o) ref)
      (prep_arr (zero_mean o) est)) as [sar|e] eqn:Es; cbn [bind].
    + split; [discriminate|]. split; [|intros _; eexists; reflexivity]. intros _.
      destruct (len1_sar_inv _ _ _ _ _ _ Hln eq_refl Es HT) as (_ & Hn & _).
      rewrite length_prep, Hld in Hn. apply HN. auto.
    + destruct (len1_sar_raise _ _ _ _ _ Hln Es) as (-> & _ & Hn). rewrite length_prep, Hld in Hn.
      split; [congruence|]. split; [intros (z & X); discriminate|]. intros X. elim Hn. apply HN. auto.
  - assert (H2 : 2 <= filter_length o) by lia.
    pose proof (n_fft_ge (a_len ref) (a_len est) Hpos) as Hnf.
    assert (Hnf2 : a_len ref + filter_length o - 1 <= n_fft (a_len ref) (a_len est)) by lia.
    set (nf := n_fft (a_len ref) (a_len est)) in *.
    assert (HN : nonsingular (filter_length o * n_chan ref)
        (gram nf (all_cdelays nf (n_chan ref) (rchan (prep_arr (zero_mean o) ref))) 0) <->
      shifts (filter_length o) (a_len ref) (n_chan ref) (fun c => unit_of (pre (zero_mean o) (xs c)))).
    { rewrite circ_shifts with (N := a_len ref); auto; try lia.
      - unfold shifts. split; apply independent_ext; intros k t Hk Ht;
          destruct (lag_split _ _ _ Hk) as (l & c & Hl0 & Hc & ->); unfold all_delays;
          rewrite lag_mod by auto; rewrite Hrc by auto; reflexivity.
      - intros c Hc. rewrite Hrc by auto. auto. }
    rewrite sq_cos_cells by (fold nf; lia). fold nf.
    destruct (sdr_coh b o ref est) as [m|e] eqn:Em; cbn [bind].
    + destruct (sar_row b (use_cg_iter o) nf (filter_length o) (load_diag o) true
        (prep_arr (zero_mean o) ref) (prep_arr (zero_mean o) est)) as [sar|e] eqn:Es; cbn [bind].
      * split; [discriminate|]. split; [|intros _; eexists; reflexivity]. intros _.
        rewrite Hcg in Es. destruct (sar_row_inv b nf _ _ _ _ _ _ H2 ltac:(lia) Es HT) as (_ & Hn & _).
        rewrite length_prep, Hld in Hn. apply HN. auto.
      * rewrite Hcg in Es. destruct (sar_row_raise b nf _ _ _ _ _ _ H2 ltac:(lia) Es) as (-> & _ & Hn).
        rewrite length_prep, Hld in Hn.
        split; [congruence|]. split; [intros (z & X); discriminate|]. intros X. elim Hn. apply HN. auto.
    + destruct (sdr_raises_iff b o ref est Hwr Hcg ltac:(lra) ltac:(lia)) as (He & Hr).
      split; [intros e' E'; injection E' as <-; apply He; auto|].
      split; [intros (z & X); discriminate|]. intros X. exfalso.
      destruct (proj1 Hr (ex_intro _ e Em)) as (_ & c & x & (Hc & Exc) & Hsil).
      assert (Exs : x = xs c).
      { rewrite (Hx c Hc) in Exc. clear - Exc. revert Exc. generalize (xs c). intros l. revert x.
        induction l as [|u l IH]; intros [|v x] E; try discriminate; auto. injection E as -> E.
        f_equal. auto. }
      subst x. revert X. apply (zero_dependent _ _ _ (0 * n_chan ref + c)); [nia|].
      intros t Ht. unfold all_delays. rewrite lag_mod, lag_div by auto.
      rewrite delayed_unit. unfold delayed. rewrite Nat.sub_0_r. simpl. rewrite Hsil. ring.
Qed.
(** C53: never enough samples for too many references *)
Theorem bss_too_short b sp o ref est xs : wf ref -> wf est ->
  use_cg_iter o = None -> loadv (load_diag o) = 0%R ->
  1 <= filter_length o <= Nat.max (a_len ref) (a_len est) ->
  (filter_length o = 1 -> a_len ref = a_len est) ->
  has_chans ref xs ->
  a_len ref + filter_length o - 1 < filter_length o * n_chan ref ->
  bss_eval_sources b sp o ref est = Raise LinAlgError.
Proof.
  intros Hwr Hwe Hcg Hld HL HL1 Hx Hn. unfold bss_eval_sources.
  destruct (bss_solvable_iff b o ref est xs) as (He & Hi); auto.
  destruct (sq_cos b o ref est) as [c|e] eqn:E.
  - exfalso. refine (too_many_dependent _ _ _ Hn (proj1 Hi _)). eexists; reflexivity.
  - rewrite (He e eq_refl). reflexivity.
Qed.
Theorem bss_duplicate b sp o ref est xs i j : wf ref -> wf est ->
  use_cg_iter o = None -> loadv (load_diag o) = 0%R ->
  1 <= filter_length o <= Nat.max (a_len ref) (a_len est) ->
  (filter_length o = 1 -> a_len ref = a_len est) ->
  has_chans ref xs -> i < j -> j < n_chan ref -> xs i = xs j ->
  bss_eval_sources b sp o ref est = Raise LinAlgError.
Proof.
  intros Hwr Hwe Hcg Hld HL HL1 Hx Hij Hj Ex. unfold bss_eval_sources.
  destruct (bss_solvable_iff b o ref est xs) as (He & Hi); auto.
  destruct (sq_cos b o ref est) as [c|e] eqn:E.
  - exfalso.
    assert (Hs : shifts (filter_length o) (a_len ref) (n_chan ref) (fun c => pre (zero_mean o) (xs c)))
      by (apply Hi; eexists; reflexivity).
    revert Hs. apply (repeated_dependent _ _ _ (0 * n_chan ref + i) (0 * n_chan ref + j)); try nia.
    intros t _. unfold all_delays. rewrite !lag_mod, !lag_div by lia. rewrite Ex. reflexivity.
  - rewrite (He e eq_refl). reflexivity.
Qed.
(** with loading the system is always solvable *)
Theorem bss_loaded_ok b o ref est xs : wf ref -> wf est ->
  use_cg_iter o = None -> (0 < loadv (load_diag o))%R ->
  1 <= filter_length o <= Nat.max (a_len ref) (a_len est) ->
  (filter_length o = 1 -> a_len ref = a_len est) ->
  has_chans ref xs -> is_ok (sq_cos b o ref est).
Proof.
  intros Hwr Hwe Hcg Hld HL HL1 Hx.
  pose proof (has_chans_clean (zero_mean o) ref xs Hwr Hx) as Hcl.
  apply clean_tainted in Hcl as HT.
  assert (Hpos : 0 < a_len ref) by apply Hwr.
  destruct (Nat.eq_dec (filter_length o) 1) as [E1|N1].
  - assert (El := HL1 E1). unfold sq_cos. rewrite E1. simpl Nat.eqb. cbn iota. unfold bc_len.
    rewrite <- El, Nat.eqb_refl. cbn [bind].
    destruct (len1_sar_ok (a_len ref) (load_diag o) (prep_arr (zero_mean o) ref) (prep_arr (zero_mean o) est))
      as (sar & ->); [| |eexists; reflexivity].
    + intros c Hc. rewrite length_prep in Hc. unfold rchan.
      destruct (has_chan_pchan (zero_mean o) ref c (xs c) Hwr (has_chans_at _ _ _ Hx Hc)) as [E Hl].
      unfold pchan in E. rewrite E. cbn [opt0]. rewrite length_unit_of, length_pre. auto.
    + apply gram_nonsingular_loaded. auto.
  - pose proof (n_fft_ge (a_len ref) (a_len est) Hpos) as Hnf.
    rewrite sq_cos_cells by lia.
    destruct (sdr_raises_iff b o ref est Hwr Hcg ltac:(lra) ltac:(lia)) as (_ & Hr).
    destruct (sdr_coh b o ref est) as [m|e] eqn:Em; cbn [bind].
    + rewrite Hcg.
      destruct (sar_row_ok b (n_fft (a_len ref) (a_len est)) (filter_length o) (load_diag o) true
        (prep_arr (zero_mean o) ref) (prep_arr (zero_mean o) est)) as (sar & ->); auto; try lia.
      * apply gram_nonsingular_loaded. auto.
      * eexists; reflexivity.
    + exfalso. destruct (proj1 Hr (ex_intro _ e eq_refl)) as (E & _). lra.
Qed.

(** ** Order of the returned values (C21) *)
Definition le_out (l l' : list xr) : Prop :=
  length l = length l' /\ forall i, i < length l -> xle (nth i l NaN) (nth i l' NaN).
Lemma xle_neg a b : xle a b -> xle (xneg b) (xneg a).
Proof.
  unfold xle. destruct a, b; simpl; auto; try discriminate.
  destruct (Rle_dec r r0); [|discriminate]. intros _. destruct (Rle_dec (- r0) (- r)); auto. lra.
Qed.
Theorem bss_ordered b sp o ref est xs ys s i a perm : lsa_contract sp -> wf ref -> wf est ->
  use_cg_iter o = None -> (0 <= loadv (load_diag o))%R ->
  2 <= filter_length o \/ (filter_length o = 1 /\ a_len ref = a_len est /\ loadv (load_diag o) = 0%R) ->
  has_chans ref xs -> has_chans est ys ->
  bss_eval_sources b sp o ref est = Ok (s, i, a, perm) ->
  le_out s a /\ le_out s i.
Proof.
  intros Hsp Hwr Hwe Hcg Hld HL Hx Hy H.
  destruct (bss_outputs b sp o ref est s i a perm Hsp H) as ([m sar] & Hc & O).
  unfold bss_eval_sources in H. rewrite Hc in H. cbn [bind] in H.
  pose proof (fun c d Hc0 Hd => sdr_le_sar_sir b o ref est m sar c d (ys d) xs Hwr Hwe Hcg Hld HL Hx Hc0
    (has_chans_at est ys d Hy Hd) Hc) as P.
  destruct (bss_mats o (m, sar)) as [[nsdr nsir] nsar].
  destruct (solve_permutation b sp (n_chan ref) (n_chan est) nsir [nsdr; nsar]) as [[[v ar] p]|] eqn:E; [|discriminate].
  assert (Hn : forall c d, c < n_chan ref -> d < n_chan est -> nsir c d <> NaN).
  { intros c d Hc0 Hd. apply (proj1 (solve_perm_total_iff sp Hsp b _ _ nsir [nsdr; nsar]) (ex_intro _ _ E)); auto. }
  destruct O as (Hcomp & _ & _ & _ & -> & -> & ->).
  assert (G : forall c d, In (c, d) (matching (n_chan ref) (n_chan est) perm) ->
    xle (xneg (nsdr c d)) (xneg (nsar c d)) /\ xle (xneg (nsdr c d)) (xneg (nsir c d))).
  { intros c d Hin. destruct Hcomp as (_ & Hr & _). destruct (Hr c d Hin) as (Hc0 & Hd).
    destruct (P c d Hc0 Hd) as (P1 & P2). split; apply xle_neg; auto.
    destruct P2 as [P2|P2]; auto. elim (Hn c d Hc0 Hd P2). }
  assert (Hm : forall (f : nat * nat -> xr) l k, k < length l -> nth k (map f l) NaN = f (nth k l (0, 0))).
  { intros f l k Hk. rewrite (nth_indep _ NaN (f (0, 0))) by (rewrite map_length; auto). apply map_nth. }
  split; (split; [rewrite !map_length; reflexivity|]); intros k Hk; rewrite map_length in Hk;
    rewrite !Hm by auto; pose proof (nth_In _ (0, 0) Hk) as Hin;
    destruct (nth k (matching (n_chan ref) (n_chan est) perm) (0, 0)) as [c d]; apply (G c d Hin).
Qed.

(** ** The permutation invariant loss never exceeds the plain one (C08) *)
Lemma NoDup_seq n : NoDup (seq 0 n).
Proof. apply seq_NoDup. Qed.
Lemma identity_assignment n : complete_assignment n n (map (fun i => (i, i)) (seq 0 n)).
Proof.
  split; [rewrite map_length, seq_length; lia|]. split.
  - intros i j Hin. apply in_map_iff in Hin. destruct Hin as (k & E & Hk). apply in_seq in Hk.
    injection E as <- <-. lia.
  - rewrite !map_map. simpl. rewrite map_id. split; apply seq_NoDup.
Qed.
Theorem pit_le_plain b sp o ref est loss : lsa_contract sp -> n_chan ref = n_chan est ->
  pairwise_sdr_loss b o est ref = Ok loss ->
  (forall i j, i < n_chan ref -> j < n_chan est -> is_fin (mat_of loss i j) = true) ->
  exists v l, sdr_pit_loss b sp o est ref = Ok v /\ sdr_loss b o est ref = Ok l /\
    (total_sdr v <= total_sdr l)%R.
Proof.
  intros Hsp Hn H Hf.
  destruct (sdr_optimal b sp o ref est loss Hsp H Hf) as (vals & perm & E & Hopt).
  exists (map xneg vals). exists (tab (n_chan ref) (fun i => mat_of loss i i)).
  split; [rewrite (proj1 (pit_is_neg_sdr b sp o ref est)), E; reflexivity|].
  split; [rewrite sdr_loss_diag, H by auto; reflexivity|].
  rewrite <- Hn in Hopt. specialize (Hopt _ (identity_assignment (n_chan ref))).
  unfold total_sdr, tab. rewrite !map_map in *. unfold at_pair in Hopt. cbn [fst snd] in Hopt.
  rewrite (map_ext _ (fun i => - to_R (mat_of loss i i))%R) in Hopt by (intros; apply to_R_xneg).
  rewrite sumR_opp in Hopt.
  rewrite (map_ext _ (fun v => - to_R v)%R) by (intros; apply to_R_xneg). rewrite sumR_opp. lra.
Qed.
