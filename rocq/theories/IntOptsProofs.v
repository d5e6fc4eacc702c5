(** * Proofs about the integer options *)
From Coq Require Import Reals Lra FunctionalExtensionality.
From Coquelicot Require Import Complex.
From Verif Require Import Prelude ExtReal Slice Sums Fft FftProofs Helpers Linalg Cgd Metrics StatsProofs SpecSig PrepProofs ProjTheorems FastPath Edge IntOpts.
Local Open Scope nat_scope.

Lemma slice_len {A} (a : list A) start stop d : exists s e, pyslice start stop 1 a = tab (e - s) (fun k => nth (s + k) a d) /\
  Z.of_nat s = (match start with Some x => clip (Z.of_nat (length a)) 0 (Z.of_nat (length a)) x | None => 0%Z end) /\
  Z.of_nat e = (match stop with Some x => clip (Z.of_nat (length a)) 0 (Z.of_nat (length a)) x | None => Z.of_nat (length a) end).
Proof.
  exists (Z.to_nat (match start with Some x => clip (Z.of_nat (length a)) 0 (Z.of_nat (length a)) x | None => 0%Z end)).
  exists (Z.to_nat (match stop with Some x => clip (Z.of_nat (length a)) 0 (Z.of_nat (length a)) x | None => Z.of_nat (length a) end)).
  assert (H1 : (0 <= match start with Some x => clip (Z.of_nat (length a)) 0 (Z.of_nat (length a)) x | None => 0%Z end)%Z).
  { destruct start; unfold clip; lia. }
  assert (H2 : (0 <= match stop with Some x => clip (Z.of_nat (length a)) 0 (Z.of_nat (length a)) x | None => Z.of_nat (length a) end)%Z).
  { destruct stop; unfold clip; lia. }
  split; [|split; apply Z2Nat.id; auto].
  apply pyslice_up; symmetry; apply Z2Nat.id; auto.
Qed.
Lemma slice_eq (a : list R) st st' sp sp' :
  (forall n, n = Z.of_nat (length a) ->
    (match st with Some x => clip n 0 n x | None => 0%Z end) = (match st' with Some x => clip n 0 n x | None => 0%Z end) /\
    (match sp with Some x => clip n 0 n x | None => n end) = (match sp' with Some x => clip n 0 n x | None => n end)) ->
  pyslice st sp 1 a = pyslice st' sp' 1 a.
Proof.
  intros H. destruct (H _ eq_refl) as [H1 H2].
  destruct (slice_len a st sp 0%R) as (s & e & -> & Hs & He).
  destruct (slice_len a st' sp' 0%R) as (s' & e' & -> & Hs' & He').
  assert (s = s') by lia. assert (e = e') by lia. subst. reflexivity.
Qed.
Lemma clip_pos n x : (0 <= n)%Z -> (0 <= x)%Z -> clip n 0 n x = Z.min x n.
Proof. intros. unfold clip. destruct (Z.ltb_spec x 0); lia. Qed.
Lemma clip_neg n x : (0 <= n)%Z -> (x < 0)%Z -> clip n 0 n x = Z.max 0 (x + n).
Proof. intros. unfold clip. destruct (Z.ltb_spec x 0); lia. Qed.

Lemma upto_spec n stop : Z.of_nat (upto n stop) =
  (match stop with Some x => clip (Z.of_nat n) 0 (Z.of_nat n) x | None => Z.of_nat n end).
Proof.
  unfold upto. destruct (slice_len (repeat 0%R n) None stop 0%R) as (s & e & -> & Hs & He).
  rewrite length_tab. rewrite repeat_length in *. lia.
Qed.
Lemma from_spec n start : Z.of_nat (from n start) = (Z.of_nat n - clip (Z.of_nat n) 0 (Z.of_nat n) start)%Z.
Proof.
  unfold from. destruct (slice_len (repeat 0%R n) (Some start) None 0%R) as (s & e & -> & Hs & He).
  rewrite length_tab. rewrite repeat_length in *.
  assert (s <= n) by (unfold clip in Hs; lia). lia.
Qed.

(** The lags of an effective length m. *)
Definition acts_as (nf : nat) (l : Z) (m : nat) : Prop :=
  (0 < l)%Z /\ m = Z.to_nat l \/ ((l < 0)%Z /\ 0 < m /\ m = nf - Z.to_nat (- l)).
Section Lags.
Variables (nf : nat) (l : Z) (m : nat).
Hypothesis HA : acts_as nf l m.
Lemma lags_pos : 0 < m.
Proof. destruct HA as [[H ->]|[H [H' ->]]]; lia. Qed.
Lemma cut_acts (a : list R) : length a = nf -> pyslice None (Some l) 1 a = cut m a.
Proof.
  intros Ha. unfold cut. apply slice_eq. intros n ->. rewrite Ha. split; [reflexivity|].
  destruct HA as [[H ->]|[H [H' ->]]].
  - rewrite !clip_pos by lia. lia.
  - rewrite clip_neg, clip_pos by lia. lia.
Qed.
Lemma last_acts (a : list R) : length a = nf -> pyslice (Some (- l)%Z) None 1 a = pyslice (Some (- Z.of_nat m)%Z) None 1 a.
Proof.
  intros Ha. apply slice_eq. intros n ->. rewrite Ha. split; [|reflexivity].
  destruct HA as [[H ->]|[H [H' ->]]].
  - rewrite !clip_neg by lia. lia.
  - rewrite clip_pos, clip_neg by lia. lia.
Qed.
Lemma acf_acts : acf_z nf l = stats_acf nf m.
Proof. apply functional_extensionality. intros x. apply cut_acts, length_irfft. Qed.
Lemma xcorr_acts : xcorr_z nf l = stats_xcorr nf m.
Proof. apply functional_extensionality. intros x. apply functional_extensionality. intros y. apply cut_acts, length_irfft. Qed.
Lemma acf2_acts : acf2_z nf l = stats2_acf nf m.
Proof.
  apply functional_extensionality. intros x. apply functional_extensionality. intros y.
  unfold acf2_z, stats2_acf. cbv zeta. rewrite cut_acts, last_acts by apply length_irfft. reflexivity.
Qed.
Lemma upto_acts : upto nf (Some l) = Nat.min m nf.
Proof.
  apply Nat2Z.inj. rewrite upto_spec. destruct HA as [[H ->]|[H [H' ->]]].
  - rewrite clip_pos by lia. lia.
  - rewrite clip_neg by lia. lia.
Qed.
Lemma from_acts : from nf (- l) = Nat.min m nf.
Proof.
  apply Nat2Z.inj. rewrite from_spec. destruct HA as [[H ->]|[H [H' ->]]].
  - rewrite clip_neg by lia. lia.
  - rewrite clip_pos by lia. lia.
Qed.
End Lags.

Lemma sar_row_same b cg nf L ld pw refs ests :
  sar_row b cg nf L ld pw refs ests = sar_row_with b cg ld pw (stats2_acf nf L) (stats_acf nf L) (stats_xcorr nf L) refs ests.
Proof. reflexivity. Qed.

(** ** SDR *)
Lemma sdr_coh_acts b o ref est m : one_tap o = false ->
  acts_as (n_fft (a_len ref) (a_len est)) (taps o (a_len ref)) m ->
  m <> 1 -> sdr_coh_z b o ref est = sdr_coh b (at_length o m) ref est.
Proof.
  intros H1 HA Hm. unfold sdr_coh_z, sdr_coh. rewrite H1. cbn [filter_length at_length]. rewrite (proj2 (Nat.eqb_neq m 1) Hm). cbv zeta.
  pose proof (lags_pos _ _ _ HA) as Hp. rewrite (upto_acts _ _ _ HA).
  pose proof (n_fft_pos (a_len ref) (a_len est)) as Hn.
  rewrite (proj2 (Nat.eqb_neq (Nat.min m (n_fft (a_len ref) (a_len est))) 0)) by lia.
  rewrite (acf_acts _ _ _ HA), (xcorr_acts _ _ _ HA). reflexivity.
Qed.
Lemma from_coh b sp o cs ref est m : sdr_coh_z b o ref est = sdr_coh b (at_length o m) ref est ->
  pairwise_sdr_loss_z b o est ref = pairwise_sdr_loss b (at_length o m) est ref /\ sdr_z b sp o cs ref est = sdr b sp (at_length o m) cs ref est.
Proof.
  intros E. assert (E1 : pairwise_sdr_loss_z b o est ref = pairwise_sdr_loss b (at_length o m) est ref).
  { unfold pairwise_sdr_loss_z, pairwise_sdr_loss. rewrite E. reflexivity. }
  split; [exact E1|]. unfold sdr_z, sdr. rewrite E1. reflexivity.
Qed.
Lemma from_raise b sp o cs ref est e : sdr_coh_z b o ref est = Raise e ->
  pairwise_sdr_loss_z b o est ref = Raise e /\ sdr_z b sp o cs ref est = Raise e.
Proof. intros E. unfold sdr_z, pairwise_sdr_loss_z. rewrite E. split; reflexivity. Qed.
Lemma sdr_coh_empty b o ref est : one_tap o = false -> upto (n_fft (a_len ref) (a_len est)) (Some (taps o (a_len ref))) = 0 ->
  sdr_coh_z b o ref est = Raise (match z_load o with Some _ => IndexError | None => empty_system b o end).
Proof. intros H1 H2. unfold sdr_coh_z. rewrite H1. cbv zeta. rewrite H2. reflexivity. Qed.

(** ** bss_eval_sources *)
Lemma at_length_metrics o m : base_metrics (at_length o 1) = base_metrics (at_length o m).
Proof. reflexivity. Qed.
Lemma bss_from b sp o ref est m :
  (sq_cos_z b o ref est = sq_cos b (at_length o m) ref est -> bss_z b sp o ref est = bss_eval_sources b sp (at_length o m) ref est) /\
  (sq_cos_diag_z b o ref est = sq_cos_diag b (at_length o m) ref est -> bss_noperm_z b o ref est = bss_eval_sources_noperm b (at_length o m) ref est).
Proof.
  split; intros E.
  - unfold bss_z, bss_eval_sources. rewrite E. reflexivity.
  - unfold bss_noperm_z, bss_eval_sources_noperm. rewrite E. reflexivity.
Qed.
Lemma bss_raise b sp o ref est e : one_tap o = false ->
  sizes_z b o (n_fft (a_len ref) (a_len est)) (taps o (a_len ref)) = Raise e ->
  bss_z b sp o ref est = Raise e /\
  bss_noperm_z b o ref est = Raise (if Nat.eqb (n_chan ref) (n_chan est) then e else AssertionError).
Proof.
  intros H1 E. unfold bss_z, bss_noperm_z, sq_cos_z, sq_cos_diag_z. rewrite H1. cbv zeta. rewrite E.
  split; [reflexivity|]. destruct (Nat.eqb _ _); reflexivity.
Qed.

(** acf_sdr when the option itself counts the lags right. *)
Lemma bss_acts b o ref est m : let nf := n_fft (a_len ref) (a_len est) in one_tap o = false ->
  acts_as nf (taps o (a_len ref)) m -> m <> 1 ->
  (exists l, z_length o = Some l /\ ((0 < l)%Z \/ l = (- Z.of_nat m)%Z /\ nf = 2 * m)) ->
  sq_cos_z b o ref est = sq_cos b (at_length o m) ref est /\ sq_cos_diag_z b o ref est = sq_cos_diag b (at_length o m) ref est.
Proof.
  intros nf H1 HA Hm (l & El & Hl).
  assert (Et : taps o (a_len ref) = l) by (unfold taps; rewrite El; reflexivity). rewrite Et in HA.
  pose proof (lags_pos _ _ _ HA) as Hp. pose proof (n_fft_pos (a_len ref) (a_len est)) as Hn. fold nf in Hn.
  assert (E1 : (0 < l)%Z -> Z.of_nat m = l) by (destruct HA as [[? ->]|[? _]]; lia).
  assert (HS : sizes_z b o nf l = check_sizes b (iterations o) nf m).
  { unfold sizes_z, check_sizes. rewrite (upto_acts _ _ _ HA), (from_acts _ _ _ HA), El. cbv zeta.
    assert (E : upto (Nat.min m nf + Nat.min m nf) (Some l) = Nat.min m (2 * Nat.min m nf)).
    { apply Nat2Z.inj. rewrite upto_spec. destruct Hl as [Hl|[Hl Hl']].
      - rewrite clip_pos by lia. specialize (E1 Hl). lia.
      - rewrite clip_neg by lia. lia. }
    rewrite E. rewrite (proj2 (Nat.eqb_neq (Nat.min m (2 * Nat.min m nf)) 0)) by lia.
    rewrite (proj2 (Nat.eqb_neq (Nat.min m nf + Nat.min m nf) 0)) by lia.
    replace (match z_load o with Some _ => false | None => false end) with false by (destruct (z_load o); reflexivity).
    unfold iterations. destruct (z_iter o); reflexivity. }
  assert (HL : forall x, length (stats2_acf nf m x x) = Nat.min m nf + Nat.min m nf).
  { intros x. unfold stats2_acf. cbv zeta. rewrite app_length. f_equal.
    - destruct (slice_len (irfft nf (zip_with (fun a b0 => Cmult a (Cconj b0)) (rfft nf x) (rfft nf x))) None (Some (Z.of_nat m)) 0%R) as (s & e & E & Hs & He).
      unfold cut. rewrite E, length_tab. rewrite length_irfft in *. rewrite clip_pos in He by lia. lia.
    - destruct (slice_len (irfft nf (zip_with (fun a b0 => Cmult a (Cconj b0)) (rfft nf x) (rfft nf x))) (Some (- Z.of_nat m)%Z) None 0%R) as (s & e & E & Hs & He).
      rewrite E, length_tab. rewrite length_irfft in *. rewrite clip_neg in Hs by lia. lia. }
  assert (HC : acf_sdr_z o nf l = acf_sdr nf m (z_load o)).
  { apply functional_extensionality. intros x. unfold acf_sdr_z, acf_sdr, cut. rewrite (acf2_acts _ _ _ HA), El.
    assert (HL' : length (add_load (z_load o) (stats2_acf nf m x x)) = Nat.min m nf + Nat.min m nf).
    { rewrite <- (HL x). unfold add_load. destruct (z_load o); [|reflexivity]. destruct (stats2_acf nf m x x); reflexivity. }
    apply slice_eq. intros n ->. split; [reflexivity|]. rewrite HL'.
    destruct Hl as [Hl|[Hl Hl']].
    - rewrite (E1 Hl). reflexivity.
    - rewrite clip_neg, clip_pos by lia. lia. }
  unfold sq_cos_z, sq_cos_diag_z, sq_cos, sq_cos_diag. rewrite H1. cbn [filter_length at_length zero_mean use_cg_iter load_diag].
  rewrite (proj2 (Nat.eqb_neq m 1) Hm). cbv zeta. fold nf. rewrite Et, HS, HC, (xcorr_acts _ _ _ HA), (acf_acts _ _ _ HA), (acf2_acts _ _ _ HA).
  split; reflexivity.
Qed.

(** ** The theorems *)
Lemma length_positive b sp o cs ref est l : z_length o = Some l -> (0 < l)%Z ->
  pairwise_sdr_loss_z b o est ref = pairwise_sdr_loss b (at_length o (Z.to_nat l)) est ref /\
  sdr_z b sp o cs ref est = sdr b sp (at_length o (Z.to_nat l)) cs ref est /\
  bss_z b sp o ref est = bss_eval_sources b sp (at_length o (Z.to_nat l)) ref est /\
  bss_noperm_z b o ref est = bss_eval_sources_noperm b (at_length o (Z.to_nat l)) ref est.
Proof.
  intros El Hl. destruct (Z.eqb_spec l 1) as [->|Hne].
  - assert (H1 : one_tap o = true) by (unfold one_tap; rewrite El; reflexivity).
    change (Z.to_nat 1) with 1.
    destruct (from_coh b sp o cs ref est 1) as [A B].
    { unfold sdr_coh_z. rewrite H1. reflexivity. }
    destruct (bss_from b sp o ref est 1) as [C D].
    split; [exact A|split; [exact B|split; [apply C|apply D]]]; unfold sq_cos_z, sq_cos_diag_z; rewrite H1; reflexivity.
  - assert (H1 : one_tap o = false) by (unfold one_tap; rewrite El; apply Z.eqb_neq; auto).
    assert (HA : acts_as (n_fft (a_len ref) (a_len est)) (taps o (a_len ref)) (Z.to_nat l)).
    { unfold taps. rewrite El. left. split; auto. }
    destruct (from_coh b sp o cs ref est (Z.to_nat l)) as [A B]; [apply sdr_coh_acts; auto; lia|].
    destruct (bss_acts b o ref est (Z.to_nat l) H1 HA ltac:(lia)) as [C D]; [exists l; auto|].
    destruct (bss_from b sp o ref est (Z.to_nat l)) as [C' D'].
    auto.
Qed.

Lemma length_none b sp o cs ref est : z_length o = None -> 2 <= a_len ref ->
  pairwise_sdr_loss_z b o est ref = pairwise_sdr_loss b (at_length o (a_len ref)) est ref /\
  sdr_z b sp o cs ref est = sdr b sp (at_length o (a_len ref)) cs ref est.
Proof.
  intros El Hl. apply from_coh. apply sdr_coh_acts; [unfold one_tap; rewrite El; reflexivity| |lia].
  unfold taps. rewrite El. left. lia.
Qed.
Lemma length_none_bss b sp o ref est : z_length o = None -> 0 < a_len ref ->
  let e := match z_iter o with None => shape_exn b | Some _ => AssertionError end in
  bss_z b sp o ref est = Raise e /\ bss_noperm_z b o ref est = Raise (if Nat.eqb (n_chan ref) (n_chan est) then e else AssertionError).
Proof.
  intros El Hl e. apply bss_raise; [unfold one_tap; rewrite El; reflexivity|].
  unfold sizes_z, taps. rewrite El. cbv zeta.
  set (nf := n_fft _ _). assert (HA : acts_as nf (Z.of_nat (a_len ref)) (a_len ref)) by (left; lia).
  rewrite (upto_acts _ _ _ HA), (from_acts _ _ _ HA).
  pose proof (n_fft_pos (a_len ref) (a_len est)) as Hn. fold nf in Hn.
  assert (E : upto (Nat.min (a_len ref) nf + Nat.min (a_len ref) nf) None = Nat.min (a_len ref) nf + Nat.min (a_len ref) nf).
  { apply Nat2Z.inj. apply upto_spec. }
  rewrite E. rewrite (proj2 (Nat.eqb_neq (Nat.min (a_len ref) nf + Nat.min (a_len ref) nf) 0)) by lia.
  rewrite (proj2 (Nat.eqb_neq (Nat.min (a_len ref) nf + Nat.min (a_len ref) nf) (Nat.min (a_len ref) nf))) by lia.
  destruct (z_load o); reflexivity.
Qed.

Lemma length_zero b sp o cs ref est : z_length o = Some 0%Z ->
  let e := match z_load o with Some _ => IndexError | None => empty_system b o end in
  pairwise_sdr_loss_z b o est ref = Raise e /\ sdr_z b sp o cs ref est = Raise e /\
  bss_z b sp o ref est = Raise (empty_system b o) /\
  bss_noperm_z b o ref est = Raise (if Nat.eqb (n_chan ref) (n_chan est) then empty_system b o else AssertionError).
Proof.
  intros El e. assert (H1 : one_tap o = false) by (unfold one_tap; rewrite El; reflexivity).
  pose proof (n_fft_pos (a_len ref) (a_len est)) as Hn.
  assert (U : forall n, upto n (Some 0%Z) = 0).
  { intros n. apply Nat2Z.inj. rewrite upto_spec, clip_pos by lia. lia. }
  destruct (from_raise b sp o cs ref est e) as [A B].
  { apply sdr_coh_empty; auto. unfold taps. rewrite El. apply U. }
  split; [exact A|split; [exact B|]]. apply bss_raise; auto.
  unfold sizes_z, taps. rewrite El. cbv zeta. rewrite !U.
  assert (F : from (n_fft (a_len ref) (a_len est)) (- 0) = n_fft (a_len ref) (a_len est)).
  { apply Nat2Z.inj. rewrite from_spec, clip_pos by lia. lia. }
  rewrite F. rewrite (proj2 (Nat.eqb_neq (0 + n_fft (a_len ref) (a_len est)) 0)) by lia. simpl. destruct (z_load o); reflexivity.
Qed.

Lemma length_negative b sp o cs ref est j : let nf := n_fft (a_len ref) (a_len est) in
  z_length o = Some (- Z.of_nat j)%Z -> 0 < j -> j + 1 < nf ->
  pairwise_sdr_loss_z b o est ref = pairwise_sdr_loss b (at_length o (nf - j)) est ref /\
  sdr_z b sp o cs ref est = sdr b sp (at_length o (nf - j)) cs ref est.
Proof.
  intros nf El Hj Hl. apply from_coh. apply sdr_coh_acts; [unfold one_tap; rewrite El; apply Z.eqb_neq; lia| |lia].
  unfold taps. rewrite El. right. fold nf. lia.
Qed.
Lemma length_negative_large b sp o cs ref est j : n_fft (a_len ref) (a_len est) <= j -> z_length o = Some (- Z.of_nat j)%Z ->
  let e := match z_load o with Some _ => IndexError | None => empty_system b o end in
  pairwise_sdr_loss_z b o est ref = Raise e /\ sdr_z b sp o cs ref est = Raise e /\ bss_z b sp o ref est = Raise e /\
  bss_noperm_z b o ref est = Raise (if Nat.eqb (n_chan ref) (n_chan est) then e else AssertionError).
Proof.
  intros Hj El e. set (nf := n_fft _ _) in *.
  pose proof (n_fft_pos (a_len ref) (a_len est)) as Hn. fold nf in Hn.
  assert (H1 : one_tap o = false) by (unfold one_tap; rewrite El; apply Z.eqb_neq; lia).
  assert (U : upto nf (Some (- Z.of_nat j)%Z) = 0).
  { apply Nat2Z.inj. rewrite upto_spec, clip_neg by lia. lia. }
  destruct (from_raise b sp o cs ref est e) as [A B].
  { apply sdr_coh_empty; auto. unfold taps. rewrite El. exact U. }
  split; [exact A|split; [exact B|]]. apply bss_raise; auto.
  unfold sizes_z, taps. rewrite El. cbv zeta. fold nf. rewrite U.
  assert (F : from nf (- - Z.of_nat j) = 0).
  { apply Nat2Z.inj. rewrite from_spec, clip_pos by lia. lia. }
  rewrite F. unfold e. destruct (z_load o); simpl; [reflexivity|].
  assert (U' : upto 0 (Some (- Z.of_nat j)%Z) = 0).
  { apply Nat2Z.inj. rewrite upto_spec. change (Z.of_nat 0) with 0%Z. rewrite clip_neg by lia. lia. }
  rewrite U'. reflexivity.
Qed.
Lemma length_negative_bss b sp o ref est j : let nf := n_fft (a_len ref) (a_len est) in
  z_length o = Some (- Z.of_nat j)%Z -> 0 < j -> j < nf ->
  (nf = 2 * j -> 1 < j ->
   bss_z b sp o ref est = bss_eval_sources b sp (at_length o j) ref est /\
   bss_noperm_z b o ref est = bss_eval_sources_noperm b (at_length o j) ref est) /\
  (nf <> 2 * j ->
   let e := if Nat.leb (2 * nf) (3 * j) then empty_system b o
            else match z_iter o with None => shape_exn b | Some _ => AssertionError end in
   bss_z b sp o ref est = Raise e /\ bss_noperm_z b o ref est = Raise (if Nat.eqb (n_chan ref) (n_chan est) then e else AssertionError)).
Proof.
  intros nf El Hj Hl. assert (H1 : one_tap o = false) by (unfold one_tap; rewrite El; apply Z.eqb_neq; lia).
  split.
  - intros En Hj1. assert (HA : acts_as nf (taps o (a_len ref)) j).
    { unfold taps. rewrite El. right. lia. }
    destruct (bss_acts b o ref est j H1 HA ltac:(lia)) as [C D].
    { exists (- Z.of_nat j)%Z. split; [exact El|]. right. fold nf. lia. }
    destruct (bss_from b sp o ref est j) as [C' D']. auto.
  - intros En e. apply bss_raise; auto. fold nf.
    unfold sizes_z, taps. rewrite El. cbv zeta.
    assert (HA : acts_as nf (- Z.of_nat j)%Z (nf - j)) by (right; lia).
    rewrite (upto_acts _ _ _ HA), (from_acts _ _ _ HA). rewrite Nat.min_l by lia.
    assert (E : upto (nf - j + (nf - j)) (Some (- Z.of_nat j)%Z) = 2 * nf - 3 * j).
    { apply Nat2Z.inj. rewrite upto_spec, clip_neg by lia. lia. }
    rewrite E. rewrite (proj2 (Nat.eqb_neq (nf - j + (nf - j)) 0)) by lia.
    replace (match z_load o with Some _ => false | None => false end) with false by (destruct (z_load o); reflexivity).
    unfold e. destruct (Nat.leb_spec (2 * nf) (3 * j)).
    + replace (2 * nf - 3 * j) with 0 by lia. reflexivity.
    + rewrite (proj2 (Nat.eqb_neq (2 * nf - 3 * j) 0)) by lia.
      rewrite (proj2 (Nat.eqb_neq (2 * nf - 3 * j) (nf - j))) by lia. reflexivity.
Qed.

(** One lag left: the general method, which agrees with the short one. *)
Lemma one_lag b sp o cs ref est : z_length o = None /\ a_len ref = 1 \/ z_length o = Some (1 - Z.of_nat (n_fft (a_len ref) (a_len est)))%Z /\ 2 <= n_fft (a_len ref) (a_len est) ->
  z_iter o = None -> z_load o = None -> wf ref -> wf est -> a_len ref = a_len est ->
  (forall c x, has_chan ref c x -> (norm_eps <= norm2 (pre (z_mean o) x))%R) ->
  pairwise_sdr_loss_z b o est ref = pairwise_sdr_loss b (at_length o 1) est ref /\ sdr_z b sp o cs ref est = sdr b sp (at_length o 1) cs ref est.
Proof.
  intros HO Hi Hld Hwr Hwe Hlen Hn. apply from_coh.
  pose proof (n_fft_pos (a_len ref) (a_len est)) as Hp.
  rewrite (fast_path_loss b (at_length o 1) ref est Hwr Hwe eq_refl Hlen Hn). cbv zeta.
  set (nf := n_fft (a_len ref) (a_len est)) in *.
  assert (H1 : one_tap o = false).
  { unfold one_tap. destruct HO as [[-> _]|[-> H]]; [reflexivity|]. apply Z.eqb_neq. lia. }
  assert (HA : acts_as nf (taps o (a_len ref)) 1).
  { unfold taps. destruct HO as [[-> H]|[-> H]]; [left; lia|right; lia]. }
  unfold sdr_coh_z. rewrite H1. cbv zeta. fold nf. rewrite (upto_acts _ _ _ HA).
  rewrite (proj2 (Nat.eqb_neq (Nat.min 1 nf) 0)) by lia.
  rewrite (acf_acts _ _ _ HA), (xcorr_acts _ _ _ HA). unfold iterations. rewrite Hi, Hld. reflexivity.
Qed.
