(** * Theorems on the gradient of the torch losses *)
From Coq Require Import Reals Lra FunctionalExtensionality.
From Verif Require Import Prelude ExtReal Sums Helpers Linalg LinalgProofs Metrics SpecSig PrepProofs
  LeastSq StatsProofs DbProofs MetricsProofs ProjTheorems MetricTheorems Invariance Gradient Autograd AutogradFft AutogradEntry AutogradProofs.
Local Open Scope nat_scope.

Lemma fin_choice {A} (a : A) n (P : nat -> A -> Prop) : (forall c, c < n -> exists x, P c x) ->
  exists f, forall c, c < n -> P c (f c).
Proof.
  induction n as [|n IH]; intros H; [exists (fun _ => a); intros; lia|].
  destruct IH as (f & Hf); [intros; apply H; lia|]. destruct (H n ltac:(lia)) as (x & Hx).
  exists (fun c => if Nat.eqb c n then x else f c). intros c Hc. destruct (Nat.eqb_spec c n); [subst; auto|apply Hf; lia].
Qed.

Lemma coh_unclamped b o D ref est : sdr_coh b (with_clamp o D) ref est = sdr_coh b o ref est.
Proof. reflexivity. Qed.

(** the form of the coherences of channel d, with the two passes *)
Definition form (b : backend) (o : opts) (ref : arr) (d : nat) (y : list R) (E : list R -> arr) (c : nat)
  (Q : (nat -> R) -> (nat -> R) -> R) : Prop :=
  bilin Q /\
  (forall v D m0, length v = length y -> pairwise_sdr_loss b (with_clamp o D) (E v) ref = Ok m0 ->
    mat_of m0 c d = coherence_to_neg_sdr D
      (Fin (Q (smp (unit_of (pre (zero_mean o) v))) (smp (unit_of (pre (zero_mean o) v)))))) /\
  (forall v m1, length v = length y -> sdr_coh b o ref (E v) = Ok m1 ->
    mat_of m1 c d = Fin (Q (smp (unit_of (pre (zero_mean o) v))) (smp (unit_of (pre (zero_mean o) v))))) /\
  (forall u w, length u = length y -> exists x, pchan (zero_mean o) ref c = Some x /\
   match neg_sdr_bw (clamp_db o) (Q (smp u) (smp u)) w with
   | Fin g => exists G, entry_bw b o (a_len ref) (length y) x u w = Ok (Some G) /\ length G = length y /\
                forall h, length h = length y ->
                  Rsum (length y) (fun t => nth t G 0 * smp h t)%R = (2 * g * Q (smp u) (smp h))%R
   | _ => entry_bw b o (a_len ref) (length y) x u w = Ok None
   end).
Lemma forms b o ref d y E m : wf ref -> use_cg_iter o = None ->
  (filter_length o = 1 -> a_len ref = length y) ->
  (forall c, c < n_chan ref -> exists x, has_chan ref c x) ->
  family E d (length y) ->
  (forall v, length v = length y -> pairwise_sdr_loss b o (E v) ref = Ok (m v)) ->
  0 < length y /\ exists Q, forall c, c < n_chan ref -> form b o ref d y E c (Q c).
Proof.
  intros Hwr Hcg HL1 Hxs HE Hm.
  assert (Hlen : forall v, length v = length y -> wf (E v) /\ a_len (E v) = length y).
  { intros v Hv. destruct (HE v Hv) as [W C]. split; auto.
    destruct (has_chan_pchan (zero_mean o) (E v) d v W C) as [_ L]. congruence. }
  assert (H0 : 0 < length y).
  { destruct (Hlen y eq_refl) as [W L]. rewrite <- L. apply W. }
  split; auto.
  apply (fin_choice (fun _ _ => 0%R) (n_chan ref) (form b o ref d y E)).
  intros c Hc. destruct (Hxs c Hc) as (x & Hx).
  destruct (loss_inv _ _ _ _ _ (Hm y eq_refl)) as (m0 & Em0 & _).
  destruct (coh_form b o ref c x (length y) (E y) m0 Hwr Hcg HL1 H0 Hx (proj2 (Hlen y eq_refl)) Em0) as (Q & HB & HF & HW).
  assert (HF' : forall v m1, length v = length y -> sdr_coh b o ref (E v) = Ok m1 ->
      mat_of m1 c d = Fin (Q (smp (unit_of (pre (zero_mean o) v))) (smp (unit_of (pre (zero_mean o) v))))).
  { intros v m1 Hv E1. apply (HF (E v) m1 d v); auto; try apply Hlen; auto. apply HE; auto. }
  exists Q. split; [exact HB|]. split; [|split; [exact HF'|]].
  - intros v D m1 Hv H1. destruct (loss_inv _ _ _ _ _ H1) as (m1' & E1 & ->).
    rewrite to_db_entry. simpl clamp_db. f_equal. apply HF'; auto.
  - intros u w Hu. destruct (has_chan_pchan (zero_mean o) ref c x Hwr Hx) as [Px _].
    exists (unit_of (pre (zero_mean o) x)). split; [exact Px|exact (HW u w Hu)].
Qed.

Lemma regular_cases cd k L :
  L = coherence_to_neg_sdr None (Fin k) ->
  match cd with
  | None => exists r, L = Fin r
  | Some D => (0 <= D)%R /\ L <> Fin D /\ L <> Fin (- D)
  end ->
  ((cl_eps cd < k < 1 - cl_eps cd /\ 0 < k < 1)%R \/
   exists D, cd = Some D /\ (0 <= D)%R /\ (k < db_clamp_eps D \/ 1 - db_clamp_eps D < k)%R).
Proof.
  intros HL HR. subst L.
  destruct (Rle_dec k 0) as [H0|H0].
  { destruct cd as [D|].
    - right. exists D. split; auto. split; [tauto|]. left. pose proof (eps_bounds D). lra.
    - exfalso. destruct HR as (r & Hr). rewrite neg_sdr_pos_inf in Hr by (right; eauto). discriminate. }
  destruct (Rle_dec 1 k) as [H1|H1].
  { destruct cd as [D|].
    - right. exists D. split; auto. split; [tauto|]. right. pose proof (eps_bounds D). lra.
    - exfalso. destruct HR as (r & Hr). rewrite neg_sdr_neg_inf in Hr by (right; eauto). discriminate. }
  destruct cd as [D|]; [|left; simpl; lra].
  rewrite neg_sdr_fin in HR by lra. destruct HR as (HD & N1 & N2).
  destruct (Rlt_dec k (db_clamp_eps D)); [right; exists D; auto|].
  destruct (Rlt_dec (1 - db_clamp_eps D) k); [right; exists D; auto|].
  left. simpl. split; [|lra]. split.
  - destruct (Req_EM_T k (db_clamp_eps D)) as [->|]; [|lra]. exfalso. apply N1. rewrite gdb_eps. auto.
  - destruct (Req_EM_T k (1 - db_clamp_eps D)) as [->|]; [|lra]. exfalso. apply N2. rewrite gdb_1eps. auto.
Qed.

Theorem gradient_is_derivative b o ref d (y : list R) w E m m0 : wf ref -> use_cg_iter o = None ->
  (filter_length o = 1 -> a_len ref = length y) ->
  (forall c, c < n_chan ref -> exists x, has_chan ref c x) ->
  family E d (length y) ->
  (forall v, length v = length y -> pairwise_sdr_loss b o (E v) ref = Ok (m v)) ->
  norm2 (pre (zero_mean o) y) <> norm_eps ->
  pairwise_sdr_loss b (with_clamp o None) (E y) ref = Ok m0 ->
  (forall c, c < n_chan ref ->
    match clamp_db o with
    | None => exists r, mat_of m0 c d = Fin r
    | Some D => (0 <= D)%R /\ mat_of m0 c d <> Fin D /\ mat_of m0 c d <> Fin (- D)
    end) ->
  exists g, est_grad b o ref (length y) (map Fin y) w = Ok (map Fin g) /\ length g = length y /\
    forall h, length h = length y -> exists s,
      (forall c, c < n_chan ref -> slope (fun v => mat_of (m v) c d) y h (s c)) /\
      Rsum (length y) (fun t => smp g t * smp h t)%R = Rsum (n_chan ref) (fun c => w c * s c)%R.
Proof.
  intros Hwr Hcg HL1 Hxs HE Hm HN Hm0 HR.
  destruct (forms b o ref d y E m Hwr Hcg HL1 Hxs HE Hm) as (H0 & Q & HQ).
  set (zm := zero_mean o) in *. set (uu := unit_of (pre zm y)).
  assert (Luu : length uu = length y) by (unfold uu; rewrite length_unit_of, length_pre; auto).
  set (k := fun c => Q c (smp uu) (smp uu)).
  assert (Hcases : forall c, c < n_chan ref ->
    ((cl_eps (clamp_db o) < k c < 1 - cl_eps (clamp_db o) /\ 0 < k c < 1)%R \/
     exists D, clamp_db o = Some D /\ (0 <= D)%R /\ (k c < db_clamp_eps D \/ 1 - db_clamp_eps D < k c)%R)).
  { intros c Hc. apply (regular_cases _ _ (mat_of m0 c d)); [|apply HR; auto].
    destruct (HQ c Hc) as (_ & F & _ & _). apply (F y None m0); auto. }
  (* the cotangents of the coherences are finite *)
  assert (Hg : forall c, c < n_chan ref -> exists g, neg_sdr_bw (clamp_db o) (k c) (w c) = Fin g).
  { intros c Hc. destruct (Hcases c Hc) as [[H H']|(D & -> & HD & H)].
    - eexists. apply neg_sdr_bw_in; auto. lra.
    - eexists. apply neg_sdr_bw_out. exact H. }
  destruct (fin_choice 0%R _ _ Hg) as (gc & Hgc).
  assert (HG : forall c, c < n_chan ref -> exists G, (exists x, pchan zm ref c = Some x /\
     entry_bw b o (a_len ref) (length y) x uu (w c) = Ok (Some G)) /\
     forall h, length h = length y -> Rsum (length y) (fun t => nth t G 0 * smp h t)%R = (2 * gc c * Q c (smp uu) (smp h))%R).
  { intros c Hc. destruct (HQ c Hc) as (_ & _ & _ & W). destruct (W uu (w c) Luu) as (x & Px & HW).
    fold (k c) in HW. rewrite (Hgc c Hc) in HW. destruct HW as (G & EG & _ & HG). exists G. split; eauto. }
  destruct (fin_choice [] _ _ HG) as (G & HG').
  rewrite (est_grad_fin b o ref (length y) w y G H0 eq_refl (fun c Hc => proj1 (HG' c Hc))). fold zm.
  eexists. split; [reflexivity|]. split; [cbv zeta; rewrite length_back, length_pre; auto|].
  intros h Hh.
  set (yy := pre zm y) in *. set (hh := pre zm h).
  assert (Lyy : length yy = length y) by apply length_pre.
  assert (Lhh : length hh = length yy) by (unfold hh, yy; rewrite !length_pre; auto).
  assert (Hray : forall t v, v = ray y h t -> unit_of (pre zm v) = unit_of (ray yy hh t)).
  { intros t v ->. unfold yy, hh. rewrite <- pre_ray; auto. }
  assert (Hs : forall c, c < n_chan ref -> exists s, slope (fun v => mat_of (m v) c d) y h s /\
     (gain yy * (2 * gc c * Q c (smp uu) (smp hh))
       - (if Rlt_dec (norm2 yy) norm_eps then 0
          else gain yy ^ 3 * (2 * gc c * Q c (smp uu) (smp yy)) * Rsum (length yy) (fun t => smp yy t * smp hh t)) = w c * s)%R).
  { intros c Hc. destruct (HQ c Hc) as (HB & F & _ & _).
    assert (HFt : forall t, mat_of (m (ray y h t)) c d =
      coherence_to_neg_sdr (clamp_db o) (Fin (Q c (smp (unit_of (ray yy hh t))) (smp (unit_of (ray yy hh t)))))).
    { intros t. rewrite <- (Hray t _ eq_refl). apply F; [apply ray_length|].
      rewrite <- (Hm (ray y h t)) by apply ray_length. f_equal. destruct o; reflexivity. }
    destruct (Hcases c Hc) as [[H H']|(D & ED & HD & H)].
    - destruct (entry_inside (Q c) yy hh HB Lhh (clamp_db o) (w c) (gc c) HN H H') as (s & (f & (e & Pe & Ne) & Df) & Es).
      { specialize (HR c Hc). destruct (clamp_db o); tauto. }
      { apply Hgc; auto. }
      exists s. split; [|exact Es]. exists f. split; auto. exists e. split; auto. intros t Ht. rewrite HFt. apply Ne; auto.
    - destruct (entry_outside (Q c) yy hh HB Lhh D HN HD H) as (f & (e & Pe & Ne) & Df).
      exists 0%R. split.
      + exists f. split; auto. exists e. split; auto. intros t Ht. rewrite HFt, ED. apply Ne; auto.
      + assert (Z : gc c = 0%R).
        { specialize (Hgc c Hc). rewrite ED, neg_sdr_bw_out in Hgc by exact H. injection Hgc. auto. }
        rewrite Z. destruct (Rlt_dec (norm2 yy) norm_eps); ring. }
  destruct (fin_choice 0%R _ _ Hs) as (s & Hs').
  exists s. split; [intros c Hc; apply Hs'; auto|].
  unfold smp at 1. unfold yy. rewrite back_adjoint by auto. fold yy hh.
  rewrite !Rsum_swap_tab.
  rewrite (Rsum_ext (n_chan ref) (fun c => w c * s c)%R (fun c =>
     gain yy * Rsum (length y) (fun t => nth t (G c) 0 * smp hh t)
     - if Rlt_dec (norm2 yy) norm_eps then 0
       else gain yy ^ 3 * Rsum (length y) (fun t => nth t (G c) 0 * smp yy t) * Rsum (length y) (fun t => smp yy t * smp hh t))%R).
  2:{ intros c Hc. destruct (Hs' c Hc) as [_ <-]. destruct (HG' c Hc) as [_ HH]. rewrite !HH by lia. rewrite Lyy. reflexivity. }
  destruct (Rlt_dec (norm2 yy) norm_eps).
  - rewrite <- Rsum_scal_l, Rminus_0_r. apply Rsum_ext. intros; ring.
  - rewrite Rsum_minus, Rsum_scal_l. f_equal. rewrite Rsum_scal_r, Rsum_scal_l. reflexivity.
Qed.

(** ** Without regularity *)
Lemma grad_shape b o ref d (y : list R) w E m : wf ref -> use_cg_iter o = None ->
  (filter_length o = 1 -> a_len ref = length y) ->
  (forall c, c < n_chan ref -> exists x, has_chan ref c x) ->
  family E d (length y) ->
  (forall v, length v = length y -> pairwise_sdr_loss b o (E v) ref = Ok (m v)) ->
  (exists g, est_grad b o ref (length y) (map Fin y) w = Ok (map Fin g) /\ length g = length y /\
     ((norm_eps <= norm2 (pre (zero_mean o) y))%R -> Rsum (length y) (fun t => smp g t * smp y t)%R = 0%R) /\
     (zero_mean o = true -> Rsum (length y) (smp g) = 0%R)) \/
  (est_grad b o ref (length y) (map Fin y) w = Ok (repeat NaN (length y)) /\ clamp_db o = None).
Proof.
  intros Hwr Hcg HL1 Hxs HE Hm.
  destruct (forms b o ref d y E m Hwr Hcg HL1 Hxs HE Hm) as (H0 & Q & HQ).
  set (zm := zero_mean o) in *. set (uu := unit_of (pre zm y)).
  assert (Luu : length uu = length y) by (unfold uu; rewrite length_unit_of, length_pre; auto).
  assert (HD : (forall c, c < n_chan ref -> exists G, exists x, pchan zm ref c = Some x /\
            entry_bw b o (a_len ref) (length y) x uu (w c) = Ok (Some G)) \/
          (clamp_db o = None /\ exists c0, c0 < n_chan ref /\ exists x, pchan zm ref c0 = Some x /\
            entry_bw b o (a_len ref) (length y) x uu (w c0) = Ok None)).
  { assert (Hx : forall c, c < n_chan ref -> exists x, pchan zm ref c = Some x /\
      ((exists G, entry_bw b o (a_len ref) (length y) x uu (w c) = Ok (Some G)) \/
       (clamp_db o = None /\ entry_bw b o (a_len ref) (length y) x uu (w c) = Ok None))).
    { intros c Hc. destruct (HQ c Hc) as (_ & _ & _ & W). destruct (W uu (w c) Luu) as (x & Px & HW). exists x. split; auto.
      destruct (neg_sdr_bw (clamp_db o) (Q c (smp uu) (smp uu)) (w c)) eqn:Eb.
      { destruct HW as (G & HW & _). eauto. }
      all: right; split; auto; destruct (clamp_db o) as [D|]; auto;
        destruct (neg_sdr_bw_clamped D (Q c (smp uu) (smp uu)) (w c)) as (r' & Hr'); congruence. }
    clear - Hx. induction (n_chan ref) as [|n IH]; [left; intros; lia|].
    destruct IH as [IH|(Hn & c0 & Hc0 & IH)]; [intros; apply Hx; lia| |right; split; auto; exists c0; split; [lia|auto]].
    destruct (Hx n ltac:(lia)) as (x & Px & [(G & EG)|(Hn & EN)]).
    - left. intros c Hc. destruct (Nat.eq_dec c n) as [->|]; [eauto|apply IH; lia].
    - right. split; auto. exists n. split; [lia|eauto]. }
  destruct HD as [HD|(Hn & c0 & Hc0 & x0 & Px0 & E0)].
  - left. destruct (fin_choice [] _ _ HD) as (G & HG).
    rewrite (est_grad_fin b o ref (length y) w y G H0 eq_refl HG). fold zm.
    eexists. split; [reflexivity|]. split; [cbv zeta; rewrite length_back, length_pre; auto|].
    split.
    + intros HNn. unfold smp at 1. rewrite back_adjoint by auto.
      destruct (Rlt_dec (norm2 (pre zm y)) norm_eps); [lra|].
      rewrite (Rsum_ext (length y) (fun t => smp (pre zm y) t * smp (pre zm y) t)%R (fun t => smp (pre zm y) t ^ 2)%R) by (intros; ring).
      pose proof (norm2_sq (pre zm y)) as En. rewrite length_pre in En. rewrite <- En.
      pose proof eps_pos. unfold gain. rewrite Rmax_left by lra. field. lra.
    + intros Hz. rewrite Hz. unfold remove_mean_bw.
      set (g1 := normalize_bw _ _). assert (L1 : length g1 = length y) by (unfold g1; rewrite length_normalize_bw, length_pre; auto).
      rewrite L1. rewrite (Rsum_ext _ _ (fun t => nth t g1 0 + - Rsum (length y) (fun s => nth s g1 0) / INR (length y))%R).
      * rewrite Rsum_plus, Rsum_const. field. apply not_0_INR. lia.
      * intros t Ht. unfold smp. rewrite nth_tab by auto. reflexivity.
  - right. split; auto. apply (est_grad_nan b o ref (length y) w y c0 H0 eq_refl Hc0).
    intros c Hc. destruct (HQ c Hc) as (_ & _ & _ & W). destruct (W uu (w c) Luu) as (x & Px & HW).
    destruct (Nat.eq_dec c c0) as [->|Hne].
    + exists x0, None. split; auto.
    + exists x. destruct (neg_sdr_bw (clamp_db o) (Q c (smp uu) (smp uu)) (w c)).
      * destruct HW as (G & HW & _). exists (Some G). split; auto. split; auto. intros; contradiction.
      * exists None. auto.
      * exists None. auto.
      * exists None. auto.
Qed.

Theorem clamped_gradient_finite b o ref d (y : list R) w E m D : wf ref -> use_cg_iter o = None ->
  (filter_length o = 1 -> a_len ref = length y) ->
  (forall c, c < n_chan ref -> exists x, has_chan ref c x) ->
  family E d (length y) ->
  (forall v, length v = length y -> pairwise_sdr_loss b o (E v) ref = Ok (m v)) ->
  clamp_db o = Some D ->
  exists g, est_grad b o ref (length y) (map Fin y) w = Ok (map Fin g) /\ length g = length y /\
     ((norm_eps <= norm2 (pre (zero_mean o) y))%R -> Rsum (length y) (fun t => smp g t * smp y t)%R = 0%R) /\
     (zero_mean o = true -> Rsum (length y) (smp g) = 0%R).
Proof.
  intros Hwr Hcg HL1 Hxs HE Hm HD.
  destruct (grad_shape b o ref d y w E m Hwr Hcg HL1 Hxs HE Hm) as [H|[_ H]]; [exact H|congruence].
Qed.

(** an infinite loss, even with weight 0, makes the whole gradient NaN *)
Theorem infinite_loss_nan b o ref c d (y : list R) w E m : wf ref -> use_cg_iter o = None -> (0 <= loadv (load_diag o))%R ->
  clamp_db o = None ->
  (filter_length o = 1 -> a_len ref = length y) ->
  (forall c, c < n_chan ref -> exists x, has_chan ref c x) ->
  family E d (length y) ->
  (forall v, length v = length y -> pairwise_sdr_loss b o (E v) ref = Ok (m v)) ->
  c < n_chan ref -> mat_of (m y) c d = PInf \/ mat_of (m y) c d = NInf ->
  est_grad b o ref (length y) (map Fin y) w = Ok (repeat NaN (length y)).
Proof.
  intros Hwr Hcg Hld Hcl HL1 Hxs HE Hm Hc HI.
  destruct (forms b o ref d y E m Hwr Hcg HL1 Hxs HE Hm) as (H0 & Q & HQ).
  set (zm := zero_mean o) in *. set (uu := unit_of (pre zm y)).
  assert (Luu : length uu = length y) by (unfold uu; rewrite length_unit_of, length_pre; auto).
  apply (est_grad_nan b o ref (length y) w y c H0 eq_refl Hc).
  intros c' Hc'. destruct (HQ c' Hc') as (_ & _ & F & W). destruct (W uu (w c') Luu) as (x & Px & HW).
  fold zm uu. exists x. destruct (Nat.eq_dec c' c) as [->|Hne].
  - exists None. split; auto. split; auto.
    assert (Ek : Q c (smp uu) (smp uu) = 0%R \/ Q c (smp uu) (smp uu) = 1%R).
    { destruct (Hxs c Hc) as (xc & Hxc).
      destruct (loss_inv _ _ _ _ _ (Hm y eq_refl)) as (m1 & E1 & Em1).
      destruct (HE y eq_refl) as [We Hch].
      assert (La : a_len (E y) = length y) by (destruct (has_chan_pchan zm (E y) d y We Hch) as [_ L]; auto).
      destruct (sdr_coh_unit_range b o ref (E y) m1 c d xc y Hwr We Hcg Hld ltac:(rewrite La; exact HL1) Hxc Hch E1) as (q & Eq & Rq).
      pose proof (to_db_entry o m1 c d) as ED. rewrite <- Em1, Eq, Hcl in ED.
      rewrite (F y m1 eq_refl E1) in Eq. fold zm uu in Eq. injection Eq as ->.
      destruct (Req_EM_T q 0) as [|N0]; [auto|]. destruct (Req_EM_T q 1) as [|N1]; [auto|].
      exfalso. rewrite neg_sdr_fin in ED by lra. destruct HI; congruence. }
    rewrite Hcl, (neg_sdr_bw_nan _ _ Ek) in HW. exact HW.
  - destruct (neg_sdr_bw (clamp_db o) (Q c' (smp uu) (smp uu)) (w c')).
    + destruct HW as (G & HW & _). exists (Some G). split; auto. split; auto. intros; contradiction.
    + exists None. auto.
    + exists None. auto.
    + exists None. auto.
Qed.

Lemma Rsum_sq_0 n (f : nat -> R) : Rsum n (fun t => f t * f t)%R = 0%R -> forall t, t < n -> f t = 0%R.
Proof.
  intros H t Ht. pose proof (Rsum_nonneg_eq0 n (fun t => f t * f t)%R (fun i _ => Rle_0_sqr (f i)) H t Ht). nra.
Qed.
Lemma zero_cotangents b o ref d (y : list R) w E m : wf ref -> use_cg_iter o = None ->
  (filter_length o = 1 -> a_len ref = length y) ->
  (forall c, c < n_chan ref -> exists x, has_chan ref c x) ->
  family E d (length y) ->
  (forall v, length v = length y -> pairwise_sdr_loss b o (E v) ref = Ok (m v)) ->
  (forall c Q, c < n_chan ref -> form b o ref d y E c Q ->
     neg_sdr_bw (clamp_db o) (Q (smp (unit_of (pre (zero_mean o) y))) (smp (unit_of (pre (zero_mean o) y)))) (w c) = Fin 0) ->
  est_grad b o ref (length y) (map Fin y) w = Ok (repeat (Fin 0) (length y)).
Proof.
  intros Hwr Hcg HL1 Hxs HE Hm HZ.
  destruct (forms b o ref d y E m Hwr Hcg HL1 Hxs HE Hm) as (H0 & Q & HQ).
  set (zm := zero_mean o) in *. set (uu := unit_of (pre zm y)) in *.
  assert (Luu : length uu = length y) by (unfold uu; rewrite length_unit_of, length_pre; auto).
  assert (HG : forall c, c < n_chan ref -> exists G, (exists x, pchan zm ref c = Some x /\
     entry_bw b o (a_len ref) (length y) x uu (w c) = Ok (Some G)) /\
     forall h, length h = length y -> Rsum (length y) (fun t => nth t G 0 * smp h t)%R = 0%R).
  { intros c Hc. pose proof (HZ c (Q c) Hc (HQ c Hc)) as Z. destruct (HQ c Hc) as (_ & _ & _ & W).
    destruct (W uu (w c) Luu) as (x & Px & HW). rewrite Z in HW. destruct HW as (G & EG & _ & HG). exists G. split; eauto.
    intros h Hh. rewrite HG by auto. ring. }
  destruct (fin_choice [] _ _ HG) as (G & HG').
  rewrite (est_grad_fin b o ref (length y) w y G H0 eq_refl (fun c Hc => proj1 (HG' c Hc))). fold zm. cbv zeta.
  set (g := if zm then _ else _).
  assert (Lg : length g = length y) by (unfold g; rewrite length_back, length_pre; auto).
  assert (Hgh : forall h, length h = length y -> Rsum (length y) (fun t => nth t g 0 * smp h t)%R = 0%R).
  { intros h Hh. unfold g. rewrite back_adjoint by auto. rewrite !Rsum_swap_tab.
    rewrite !(Rsum_zero (n_chan ref)).
    - destruct (Rlt_dec _ _); ring.
    - intros c Hc. apply HG'; auto. apply length_pre.
    - intros c Hc. apply HG'; auto. rewrite length_pre. auto. }
  f_equal. apply (nth_ext _ _ (Fin 0) (Fin 0)); [rewrite map_length, repeat_length; auto|].
  intros t Ht. rewrite map_length in Ht. rewrite (map_nth Fin), nth_repeat. f_equal.
  apply (Rsum_sq_0 (length y) (fun t => nth t g 0%R)); [apply (Hgh g Lg)|lia].
Qed.

(** clamped losses beyond the limits do not move the estimate *)
Theorem saturated_gradient_zero b o ref d (y : list R) w E m m0 D : wf ref -> use_cg_iter o = None ->
  (filter_length o = 1 -> a_len ref = length y) ->
  (forall c, c < n_chan ref -> exists x, has_chan ref c x) ->
  family E d (length y) ->
  (forall v, length v = length y -> pairwise_sdr_loss b o (E v) ref = Ok (m v)) ->
  clamp_db o = Some D -> (0 <= D)%R ->
  pairwise_sdr_loss b (with_clamp o None) (E y) ref = Ok m0 ->
  (forall c, c < n_chan ref ->
     mat_of m0 c d = PInf \/ mat_of m0 c d = NInf \/ exists r, mat_of m0 c d = Fin r /\ (D < Rabs r)%R) ->
  est_grad b o ref (length y) (map Fin y) w = Ok (repeat (Fin 0) (length y)).
Proof.
  intros Hwr Hcg HL1 Hxs HE Hm HD HD0 Hm0 HS.
  apply (zero_cotangents b o ref d y w E m); auto.
  intros c Q Hc (_ & F & _). specialize (F y None m0 eq_refl Hm0). specialize (HS c Hc). rewrite F in HS. clear F.
  set (k := Q _ _) in *. rewrite HD. apply neg_sdr_bw_out. simpl.
  pose proof (eps_bounds D) as Be. pose proof (eps_half D HD0) as Hh.
  destruct (Rle_dec k 0); [left; lra|]. destruct (Rle_dec 1 k); [right; lra|].
  rewrite neg_sdr_fin in HS by lra. destruct HS as [HS|[HS|(r & Er & HS)]]; try discriminate. injection Er as <-.
  destruct (Rlt_dec k (db_clamp_eps D)) as [|N1]; [auto|]. destruct (Rlt_dec (1 - db_clamp_eps D) k) as [|N2]; [auto|].
  exfalso. assert (gdb k <= D)%R by (rewrite <- (gdb_eps D); apply gdb_le; lra).
  assert (- D <= gdb k)%R by (rewrite <- (gdb_1eps D); apply gdb_le; lra).
  unfold Rabs in HS. destruct (Rcase_abs (gdb k)); lra.
Qed.

Theorem silent_gradient b o ref d (y : list R) w E m : wf ref -> use_cg_iter o = None ->
  (filter_length o = 1 -> a_len ref = length y) ->
  (forall c, c < n_chan ref -> exists x, has_chan ref c x) ->
  family E d (length y) ->
  (forall v, length v = length y -> pairwise_sdr_loss b o (E v) ref = Ok (m v)) ->
  0 < n_chan ref -> silent (pre (zero_mean o) y) ->
  est_grad b o ref (length y) (map Fin y) w =
    Ok (repeat (match clamp_db o with None => NaN | Some _ => Fin 0 end) (length y)).
Proof.
  intros Hwr Hcg HL1 Hxs HE Hm Hn Hs.
  assert (HZ : forall c Q, form b o ref d y E c Q ->
    Q (smp (unit_of (pre (zero_mean o) y))) (smp (unit_of (pre (zero_mean o) y))) = 0%R).
  { intros c Q (HB & _). rewrite Q_unit2 by auto.
    assert (E0 : smp (pre (zero_mean o) y) = (fun k => 0 * smp (pre (zero_mean o) y) k)%R).
    { apply functional_extensionality. intros k. rewrite Hs. ring. }
    rewrite E0 at 1. rewrite (proj2 (proj2 HB)). ring. }
  destruct (clamp_db o) as [D|] eqn:HD.
  - apply (zero_cotangents b o ref d y w E m); auto.
    intros c Q Hc HF. rewrite (HZ c Q HF), HD. apply neg_sdr_bw_out. simpl. pose proof (eps_bounds D). lra.
  - destruct (forms b o ref d y E m Hwr Hcg HL1 Hxs HE Hm) as (H0 & Q & HQ).
    apply (est_grad_nan b o ref (length y) w y 0 H0 eq_refl Hn).
    intros c Hc. pose proof (HZ c (Q c) (HQ c Hc)) as Z. destruct (HQ c Hc) as (_ & _ & _ & W).
    destruct (W (unit_of (pre (zero_mean o) y)) (w c)) as (x & Px & HW); [rewrite length_unit_of, length_pre; auto|].
    rewrite Z, HD, neg_sdr_bw_nan in HW by auto. exists x, None. auto.
Qed.

(** ** Scaling the estimate *)
Lemma normalize_bw_scale k v g : (0 < k)%R -> (norm_eps <= norm2 v)%R -> (norm_eps <= k * norm2 v)%R ->
  normalize_bw (rscale k v) g = rscale (/ k) (normalize_bw v g).
Proof.
  intros Hk H1 H2. pose proof eps_pos as He.
  assert (En : forall u, sqrt (Rsum (length u) (fun t => nth t u 0 * nth t u 0))%R = norm2 u).
  { intros u. unfold norm2. f_equal. apply Rsum_ext. intros. unfold smp. ring. }
  unfold normalize_bw. rewrite !En, norm2_rscale, length_rscale. rewrite (Rabs_right k) by lra.
  rewrite !Rmax_left by lra.
  symmetry. unfold rscale at 1. unfold tab. rewrite map_map. apply map_ext. intros t. symmetry.
  destruct (Rle_dec norm_eps (k * norm2 v)); [|lra]. destruct (Rle_dec norm_eps (norm2 v)); [|lra].
  destruct (Req_EM_T (k * norm2 v) 0); [nra|]. destruct (Req_EM_T (norm2 v) 0); [lra|].
  rewrite (Rsum_ext _ (fun t => - nth t g 0 * (nth t (rscale k v) 0 / (k * norm2 v) / (k * norm2 v)))%R
    (fun t => / k * (- nth t g 0 * (nth t v 0 / norm2 v / norm2 v)))%R).
  - rewrite Rsum_scal_l. change (nth t (rscale k v) 0%R) with (smp (rscale k v) t). rewrite smp_rscale. unfold smp. field. lra.
  - intros s _. change (nth s (rscale k v) 0%R) with (smp (rscale k v) s). rewrite smp_rscale. unfold smp. field. lra.
Qed.
Lemma remove_mean_bw_scale k g : remove_mean_bw (rscale k g) = rscale k (remove_mean_bw g).
Proof.
  unfold remove_mean_bw. rewrite length_rscale. symmetry. unfold rscale at 1. unfold tab. rewrite map_map. apply map_ext. intros t. symmetry.
  change (nth t (rscale k g) 0%R) with (smp (rscale k g) t). rewrite smp_rscale.
  rewrite (Rsum_ext _ (fun s => nth s (rscale k g) 0%R) (fun s => k * nth s g 0)%R).
  - rewrite Rsum_scal_l. unfold smp, Rdiv. ring.
  - intros s _. apply smp_rscale.
Qed.
Theorem gradient_scale b o ref (y : list R) w g k : 0 < length y ->
  (0 < k)%R -> (norm_eps <= norm2 (pre (zero_mean o) y))%R -> (norm_eps <= k * norm2 (pre (zero_mean o) y))%R ->
  est_grad b o ref (length y) (map Fin y) w = Ok (map Fin g) ->
  est_grad b o ref (length y) (map Fin (rscale k y)) w = Ok (map Fin (rscale (/ k) g)).
Proof.
  intros H0 Hk H1 H2. unfold est_grad. rewrite !fin_list_map, !prep_fin by (rewrite ?length_rscale; auto). cbv zeta.
  rewrite pre_rscale by auto. rewrite unit_rscale; [|lra|right; rewrite (Rabs_right k) by lra; auto].
  assert (Es : forall u, rscale (sgn k) u = u).
  { intros u. unfold sgn. destruct (Rlt_dec k 0); [lra|]. unfold rscale. rewrite <- (map_id u) at 2. apply map_ext. intros; ring. }
  rewrite Es. destruct (mapM _ _) as [gs|ex]; cbn [bind]; [|discriminate].
  destruct (existsb tainted gs).
  { intros H. exfalso. injection H as H. destruct y as [|a y]; [simpl in H0; lia|]. destruct g; discriminate. }
  set (gt := tab _ _).
  assert (Ey : forall v, 0 < length v -> (if zero_mean o then map to_R (remove_mean (map Fin v)) else v) = pre (zero_mean o) v).
  { intros v Hv. destruct (zero_mean o); [|reflexivity]. rewrite remove_mean_fin by lia. cbn [pre]. rewrite map_map.
    rewrite <- (map_id (centered v)) at 2. apply map_ext. reflexivity. }
  rewrite !Ey by (rewrite ?length_rscale; auto). rewrite pre_rscale by auto.
  intros H. injection H as H.
  assert (Hg : (if zero_mean o then remove_mean_bw (normalize_bw (pre (zero_mean o) y) gt) else normalize_bw (pre (zero_mean o) y) gt) = g).
  { revert H. generalize g. induction (if zero_mean o then _ else _) as [|a l IH]; intros [|a' g'] H; try discriminate; auto.
    simpl in H. injection H as -> H. f_equal. auto. }
  rewrite <- Hg. rewrite normalize_bw_scale by auto. f_equal. f_equal.
  destruct (zero_mean o); [apply remove_mean_bw_scale|reflexivity].
Qed.
