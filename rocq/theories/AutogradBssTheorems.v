(** * Theorems on the gradient of bss_eval_sources *)
From Coq Require Import Reals Lra.
From Verif Require Import Prelude ExtReal Sums Spec Helpers Metrics SpecSig PrepProofs StatsProofs DbProofs MetricsProofs ProjTheorems MetricTheorems
  Cells Delay Edge Diag SarProofs HungarianTop Outputs PermProofs Invariance Gradient Autograd AutogradEntry AutogradProofs AutogradTheorems AutogradPit
  AutogradPitProofs AutogradPitTheorems AutogradBss AutogradBssForms AutogradBssProofs.
Local Open Scope nat_scope.

(** the three metrics of reference c and estimate d without clamping; [c0] are the coherences *)
Definition unclamped (o : opts) (c0 : list (list xr) * list xr) (c d : nat) : xr * xr * xr :=
  base_metrics (with_clamp o None) (mat_of (fst c0) c d) (nth d (snd c0) NaN).
(** a value where the conversion to decibels is differentiable *)
Definition db_smooth (cd : option R) (L : xr) : Prop :=
  match cd with None => exists r, L = Fin r | Some D => L <> Fin D /\ L <> Fin (- D) end.
Definition used (w : option (nat -> R)) : bool := match w with Some _ => true | None => false end.
Definition weight (w : option (nat -> R)) (k : nat) : R := match w with Some f => f k | None => 0%R end.
Definition clamp_pos (o : opts) : Prop := (match clamp_db o with Some D => 0 <= D | None => True end)%R.

Lemma used_some w : w <> None -> used w = true.
Proof. destruct w; [auto|contradiction]. Qed.
Lemma used_not w : used w = true -> w <> None.
Proof. destruct w; discriminate. Qed.
Lemma smooth_regular o k : clamp_pos o -> db_smooth (clamp_db o) (coherence_to_neg_sdr None (Fin k)) -> regular (clamp_db o) k.
Proof.
  intros Hp H. apply (regular_cases (clamp_db o) k _ eq_refl). unfold clamp_pos, db_smooth in *. destruct (clamp_db o); auto.
Qed.

Lemma bss_grad_list o ref T K ys (cmp : nat -> nat -> bool) (ws wi wa : nat -> option (nat -> R)) G : shaped K T G ->
  (forall d, d < K -> bss_chan_grad o ref T (map Fin (nth d ys [])) (cmp d) (ws d) (wi d) (wa d) = Ok (map Fin (nth d G []))) ->
  mapM (fun d => bss_chan_grad o ref (a_len (arr_of T ys)) (nth d (a_chans (arr_of T ys)) []) (cmp d) (ws d) (wi d) (wa d)) (seq 0 K) =
  Ok (map (map Fin) G).
Proof.
  intros [LG _] H. rewrite (mapM_ok _ (fun d => map Fin (nth d G []))).
  - f_equal. rewrite <- LG. symmetry. apply (map_seq (map Fin) G []).
  - intros d Hd. apply in_seq in Hd. rewrite arr_of_chan. apply H. lia.
Qed.

Section Lines.
  Context (o : opts) (ref : arr) (T K : nat) (ys : list (list R)) (c0 : list (list xr) * list xr) (cmp : nat -> nat -> bool) (ns ni na : bool).
  Context (Hwr : wf ref) (HT : 0 < T) (Hys : shaped K T ys) (Hcg : use_cg_iter o = None) (HL0 : 0 < filter_length o).
  Context (HL1 : filter_length o = 1 -> a_len ref = T).
  Context (Hxs : forall c, c < n_chan ref -> exists x, has_chan ref c x).
  Context (Hc0 : sq_cos Torch o ref (arr_of T ys) = Ok c0).
  Context (Hcp : clamp_pos o) (HN : forall d, d < K -> norm2 (pre (zero_mean o) (nth d ys [])) <> norm_eps).
  Context (Hsm : forall c d, c < n_chan ref -> d < K -> cmp d c = true ->
    (ns = true -> db_smooth (clamp_db o) (fst (fst (unclamped o c0 c d)))) /\
    (ni = true -> db_smooth (clamp_db o) (snd (fst (unclamped o c0 c d))) /\ snd (unclamped o c0 c d) <> PInf) /\
    (na = true -> db_smooth (clamp_db o) (snd (unclamped o c0 c d)))).
  Let nr := n_chan ref.

  Lemma bss_lines (ws wi wa : nat -> option (nat -> R)) :
    (forall d, ws d <> None -> ns = true) -> (forall d, wi d <> None -> ni = true) -> (forall d, wa d <> None -> na = true) ->
    exists G, shaped K T G /\
    (forall d, d < K -> bss_chan_grad o ref T (map Fin (nth d ys [])) (cmp d) (ws d) (wi d) (wa d) = Ok (map Fin (nth d G []))) /\
    forall hs, shaped K T hs -> exists (f : nat -> nat -> (R -> R) * (R -> R) * (R -> R)) (s : nat -> nat -> R * R * R) e, (0 < e)%R /\
      (forall c d, c < nr -> d < K -> cmp d c = true -> (ns = true -> derivable_pt_lim (fst (fst (f c d))) 0 (fst (fst (s c d)))) /\
        (ni = true -> derivable_pt_lim (snd (fst (f c d))) 0 (snd (fst (s c d)))) /\
        (na = true -> derivable_pt_lim (snd (f c d)) 0 (snd (s c d)))) /\
      (forall t, (Rabs t < e)%R -> exists m, sq_cos Torch o ref (arr_of T (rays ys hs t)) = Ok m /\
         forall c d, c < nr -> d < K -> cmp d c = true -> let b := base_metrics o (mat_of (fst m) c d) (nth d (snd m) NaN) in
           (ns = true -> fst (fst b) = Fin (fst (fst (f c d)) t)) /\ (ni = true -> snd (fst b) = Fin (snd (fst (f c d)) t)) /\
           (na = true -> snd b = Fin (snd (f c d) t))) /\
      Rsum K (fun d => Rsum T (fun t => smp (nth d G []) t * smp (nth d hs []) t))%R =
      Rsum K (fun d => Rsum nr (fun c => if cmp d c then bss_weight (s c d) (cot (ws d) c) (cot (wi d) c) (cot (wa d) c) else 0))%R.
  Proof.
    intros U1 U2 U3.
    destruct (bss_has_forms o ref T (arr_of T ys) c0 Hwr HT Hcg HL1 HL0 Hxs eq_refl Hc0) as (Qs & Qa & HF).
    pose proof (bf_clean o ref Hwr Hxs) as Hcl.
    set (ks := fun c v => Qs c (nrm o v) (nrm o v)). set (ka := fun v => Qa (nrm o v) (nrm o v)).
    assert (HM : forall zs, shaped K T zs -> exists m, sq_cos Torch o ref (arr_of T zs) = Ok m /\
      forall c d, c < nr -> d < K -> mat_of (fst m) c d = Fin (ks c (nth d zs [])) /\ nth d (snd m) NaN = Fin (ka (nth d zs []))).
    { intros zs Hzs. destruct HF as (_ & _ & F & _). destruct (F (arr_of T zs) (arr_of_wf K T zs HT Hzs) eq_refl) as (m & sar & E & H).
      exists (m, sar). split; auto. intros c d Hc Hd. destruct (H d (nth d zs []) (arr_of_has K T zs d Hzs Hd)) as [H1 H2]. split; [apply H2|]; auto. }
    destruct (HM ys Hys) as (m & Em & M0). rewrite Hc0 in Em. injection Em as <-.
    assert (RS : forall c d, c < nr -> d < K -> cmp d c = true -> ns = true -> regular (clamp_db o) (ks c (nth d ys []))).
    { intros c d Hc Hd Em Hn. destruct (Hsm c d Hc Hd Em) as [H _]. apply smooth_regular; auto. specialize (H Hn).
      unfold unclamped in H. destruct (M0 c d Hc Hd) as [E _]. rewrite E in H. exact H. }
    assert (RA : forall c d, c < nr -> d < K -> cmp d c = true -> na = true -> regular (clamp_db o) (ka (nth d ys []))).
    { intros c d Hc Hd Em Hn. destruct (Hsm c d Hc Hd Em) as (_ & _ & H). apply smooth_regular; auto. specialize (H Hn).
      unfold unclamped in H. destruct (M0 c d Hc Hd) as [_ E]. rewrite E in H. exact H. }
    assert (RI : forall c d, c < nr -> d < K -> cmp d c = true -> ni = true -> ka (nth d ys []) <> 0%R /\
      regular (clamp_db o) (ks c (nth d ys []) / ka (nth d ys []))%R).
    { intros c d Hc Hd Em Hn. destruct (Hsm c d Hc Hd Em) as (_ & H & _). destruct (H Hn) as [H1 H2].
      unfold unclamped in H1, H2. destruct (M0 c d Hc Hd) as [E1 E2]. rewrite E1, E2 in H1. rewrite E2 in H2. cbn [fst snd base_metrics with_clamp clamp_db] in H1, H2.
      assert (ka (nth d ys []) <> 0%R).
      { intros Z. apply H2. apply neg_sdr_pos_inf. right. eexists. split; [reflexivity|]. lra. }
      split; auto. apply smooth_regular; auto. rewrite xdiv_fin in H1 by auto. exact H1. }
    assert (HC : forall d h, d < K -> length h = T -> _) by
      (intros d h Hd; exact (bss_chan_gradient o ref T (nth d ys []) (cmp d) Qs Qa HF HT (shaped_nth K T ys d Hys Hd) Hcl (HN d Hd) Hcp ns ni na
        (fun c Hc => RS c d Hc Hd) (fun c Hc => RI c d Hc Hd) (fun c Hc => RA c d Hc Hd) h)).
    cbv beta in HC.
    assert (HG : forall d, d < K -> exists g, bss_chan_grad o ref T (map Fin (nth d ys [])) (cmp d) (ws d) (wi d) (wa d) = Ok (map Fin g) /\ length g = T).
    { intros d Hd. destruct (HC d (nth d ys []) Hd (shaped_nth K T ys d Hys Hd)) as (f & s & e & _ & _ & _ & H).
      destruct (H (ws d) (wi d) (wa d) (U1 d) (U2 d) (U3 d)) as (g & E & L & _). eauto. }
    apply (fin_choice []) in HG. destruct HG as (G & HG).
    assert (NG : forall d, d < K -> nth d (map G (seq 0 K)) [] = G d).
    { intros d Hd. rewrite (nth_indep _ [] (G 0)) by (rewrite map_length, seq_length; auto). rewrite map_nth, seq_nth by auto. reflexivity. }
    exists (map G (seq 0 K)). split; [|split].
    - split; [rewrite map_length, seq_length; auto|]. apply Forall_forall. intros x Hx. apply in_map_iff in Hx.
      destruct Hx as (d & <- & Hd). apply in_seq in Hd. apply HG. lia.
    - intros d Hd. rewrite NG by auto. apply HG; auto.
    - intros hs Hhs.
      assert (HD : forall d, d < K -> exists p : (nat -> (R -> R) * (R -> R) * (R -> R)) * (nat -> R * R * R),
        (exists e, (0 < e)%R /\ forall c, c < nr -> cmp d c = true -> forall t, (Rabs t < e)%R ->
           let b := base_metrics o (Fin (ks c (ray (nth d ys []) (nth d hs []) t))) (Fin (ka (ray (nth d ys []) (nth d hs []) t))) in
           (ns = true -> fst (fst b) = Fin (fst (fst (fst p c)) t)) /\ (ni = true -> snd (fst b) = Fin (snd (fst (fst p c)) t)) /\
           (na = true -> snd b = Fin (snd (fst p c) t))) /\
        (forall c, c < nr -> cmp d c = true -> (ns = true -> derivable_pt_lim (fst (fst (fst p c))) 0 (fst (fst (snd p c)))) /\
           (ni = true -> derivable_pt_lim (snd (fst (fst p c))) 0 (snd (fst (snd p c)))) /\
           (na = true -> derivable_pt_lim (snd (fst p c)) 0 (snd (snd p c)))) /\
        Rsum T (fun t => smp (G d) t * smp (nth d hs []) t)%R =
        Rsum nr (fun c => if cmp d c then bss_weight (snd p c) (cot (ws d) c) (cot (wi d) c) (cot (wa d) c) else 0)%R).
      { intros d Hd. destruct (HC d (nth d hs []) Hd (shaped_nth K T hs d Hhs Hd)) as (f & s & e & He & H1 & H2 & H3).
        destruct (H3 (ws d) (wi d) (wa d) (U1 d) (U2 d) (U3 d)) as (g & E & _ & Eg).
        destruct (HG d Hd) as [E' _]. rewrite E' in E. injection E as E. apply map_Fin_inj in E. subst g.
        exists (f, s). split; [|split; [exact H2|exact Eg]]. exists e. split; auto. }
      apply (fin_choice ((fun _ => ((fun _ => 0%R), (fun _ => 0%R), (fun _ => 0%R))), (fun _ => (0%R, 0%R, 0%R)))) in HD. destruct HD as (p & HD).
      destruct (common_bound K (fun d e => forall c, c < nr -> cmp d c = true -> forall t, (Rabs t < e)%R ->
           let b := base_metrics o (Fin (ks c (ray (nth d ys []) (nth d hs []) t))) (Fin (ka (ray (nth d ys []) (nth d hs []) t))) in
           (ns = true -> fst (fst b) = Fin (fst (fst (fst (p d) c)) t)) /\ (ni = true -> snd (fst b) = Fin (snd (fst (fst (p d) c)) t)) /\
           (na = true -> snd b = Fin (snd (fst (p d) c) t)))) as (e & He & HE).
      { intros d e e' Hee HP c Hc Em t Ht. apply HP; auto. lra. }
      { intros d Hd. apply HD; auto. }
      exists (fun c d => fst (p d) c), (fun c d => snd (p d) c), e. split; auto. split; [|split].
      + intros c d Hc Hd Em. apply HD; auto.
      + intros t Ht. destruct (HM (rays ys hs t) (rays_shaped K T ys hs t Hys)) as (m & Em & HMt). exists m. split; auto.
        intros c d Hc Hd Ec. destruct (HMt c d Hc Hd) as [-> ->]. rewrite nth_rays by (destruct Hys; lia). apply HE; auto.
      + apply Rsum_ext. intros d Hd. rewrite NG by auto. apply HD; auto.
  Qed.
End Lines.

Lemma rays_zero K T ys hs : shaped K T ys -> shaped K T hs -> rays ys hs 0 = ys.
Proof.
  intros Hys Hhs. apply (nth_ext _ _ [] []); [unfold rays; rewrite map_length, seq_length; auto|].
  intros d Hd. unfold rays in Hd. rewrite map_length, seq_length in Hd. rewrite nth_rays by auto.
  apply smp_ext; [apply ray_length|]. intros k. rewrite smp_ray; [ring|].
  pose proof (proj1 Hys) as LK. rewrite (shaped_nth K T hs), (shaped_nth K T ys) by (auto; lia). reflexivity.
Qed.

(** ** compute_permutation = True *)
Theorem bss_gradient sp o ref T K ys c0 vs vi va sdrs sirs sars perm : lsa_contract sp -> wf ref -> 0 < T -> shaped K T ys ->
  use_cg_iter o = None -> 0 < filter_length o -> (filter_length o = 1 -> a_len ref = T) ->
  (forall c, c < n_chan ref -> exists x, has_chan ref c x) ->
  sq_cos Torch o ref (arr_of T ys) = Ok c0 -> clamp_pos o ->
  (forall d, d < K -> norm2 (pre (zero_mean o) (nth d ys [])) <> norm_eps) ->
  (forall c d, c < n_chan ref -> d < K ->
    (vs <> None -> db_smooth (clamp_db o) (fst (fst (unclamped o c0 c d)))) /\
    db_smooth (clamp_db o) (snd (fst (unclamped o c0 c d))) /\ snd (unclamped o c0 c d) <> PInf /\
    (va <> None -> db_smooth (clamp_db o) (snd (unclamped o c0 c d)))) ->
  bss_eval_sources Torch sp o ref (arr_of T ys) = Ok (sdrs, sirs, sars, perm) ->
  (forall l, complete_assignment (n_chan ref) K l ->
     (total_cost (fun c d => to_R (snd (fst (bss_mats o c0)) c d)) l <=
      total_cost (fun c d => to_R (snd (fst (bss_mats o c0)) c d)) (matching (n_chan ref) K perm))%R ->
     incl l (matching (n_chan ref) K perm)) ->
  exists G, bss_grad sp o ref (arr_of T ys) vs vi va = Ok (map (map Fin) G) /\ shaped K T G /\
    forall hs, shaped K T hs -> exists (fs fi fa : nat -> R -> R) (ss si sa : nat -> R) e, (0 < e)%R /\
      (forall t, (Rabs t < e)%R -> exists sdrs' sirs' sars',
         bss_eval_sources Torch sp o ref (arr_of T (rays ys hs t)) = Ok (sdrs', sirs', sars', perm) /\
         forall k, k < Nat.min (n_chan ref) K -> (vs <> None -> nth k sdrs' NaN = Fin (fs k t)) /\
           nth k sirs' NaN = Fin (fi k t) /\ (va <> None -> nth k sars' NaN = Fin (fa k t))) /\
      (forall k, k < Nat.min (n_chan ref) K -> (vs <> None -> derivable_pt_lim (fs k) 0 (ss k)) /\
         derivable_pt_lim (fi k) 0 (si k) /\ (va <> None -> derivable_pt_lim (fa k) 0 (sa k))) /\
      Rsum K (fun d => Rsum T (fun t => smp (nth d G []) t * smp (nth d hs []) t))%R =
      Rsum (Nat.min (n_chan ref) K) (fun k => weight vs k * ss k + weight vi k * si k + weight va k * sa k)%R.
Proof.
  intros Hsp Hwr HT Hys Hcg HL0 HL1 Hxs Hc0 Hcp HN Hsm HB HU. set (nr := n_chan ref) in *.
  assert (EK : n_chan (arr_of T ys) = K) by (rewrite arr_of_n; apply Hys).
  pose proof HB as HB0. unfold bss_eval_sources in HB0. rewrite Hc0 in HB0. cbn [bind] in HB0.
  destruct (bss_mats o c0) as [[nsdr nsir] nsar] eqn:EM. fold nr in HB0. rewrite EK in HB0. cbn [fst snd] in HU.
  destruct (solve_permutation Torch sp nr K nsir [nsdr; nsar]) as [[[out outs] perm0]|ex] eqn:EP; [|discriminate].
  cbn [bind] in HB0. injection HB0 as _ _ _ ->.
  destruct (solve_perm_outputs sp Hsp Torch nr K nsir [nsdr; nsar] out outs perm EP) as (C1 & C2 & C3 & C4 & C5 & _).
  set (W := fun (v : option (nat -> R)) d => option_map (fun v => fun c => perm_bw nr K perm (fun i => - v i)%R c d) v).
  assert (WN : forall v d, W v d <> None -> used v = true) by (intros [v|] d H; [reflexivity|contradiction H; reflexivity]).
  destruct (bss_lines o ref T K ys c0 (fun _ _ => true) (used vs) true (used va) Hwr HT Hys Hcg HL0 HL1 Hxs Hc0 Hcp HN) with (ws := W vs) (wi := W vi) (wa := W va)
    as (G & SG & HG & HL); auto.
  { intros c d Hc Hd _. destruct (Hsm c d Hc Hd) as (H1 & H2 & H3 & H4). split; [intros E; apply H1, used_not; auto|].
    split; [auto|intros E; apply H4, used_not; auto]. }
  { intros d. apply WN. } { intros d. apply WN. }
  exists G. split; [|split; [exact SG|]].
  { unfold bss_grad. rewrite Hc0. cbn [bind]. rewrite EM. fold nr. rewrite EK, EP. cbn [bind].
    exact (bss_grad_list o ref T K ys (fun _ _ => true) (W vs) (W vi) (W va) G SG HG). }
  intros hs Hhs. destruct (HL hs Hhs) as (f & s & e & He & HD & HF & ES). fold nr in HD, HF, ES.
  (* the SIR at 0 *)
  assert (H00 : forall c d, c < nr -> d < K -> to_R (nsir c d) = snd (fst (f c d)) 0%R).
  { intros c d Hc Hd. destruct (HF 0%R) as (m' & E' & H'); [rewrite Rabs_R0; auto|].
    rewrite (rays_zero K T) in E' by auto. rewrite Hc0 in E'. injection E' as <-. destruct (H' c d Hc Hd eq_refl) as (_ & H2 & _).
    specialize (H2 eq_refl). assert (EI : nsir = snd (fst (bss_mats o c0))) by (rewrite EM; reflexivity). rewrite EI.
    destruct c0 as [m0 sar0]. unfold bss_mats. cbn [fst snd] in H2 |- *. rewrite H2. reflexivity. }
  set (cost := fun c d => to_R (nsir c d)) in *.
  destruct (finite_gap (list_prod (seq 0 nr) (seq 0 K)) (Nat.min nr K)
    (fun l => total_cost cost l - total_cost cost (matching nr K perm))%R) as (gap & Hgap & GAP).
  set (kk := INR (Nat.min nr K)). assert (0 <= kk)%R by apply pos_INR.
  set (del := (gap / (2 * kk + 1))%R). assert (Hdel : (0 < del)%R) by (apply Rdiv_lt_0_compat; lra).
  assert (Hkd : (2 * (kk * del) < gap)%R).
  { assert (E : ((2 * kk + 1) * del = gap)%R) by (unfold del; field; lra). lra. }
  destruct (common_bound2 nr K (fun c d e' => forall t, (Rabs t < e')%R -> (Rabs (snd (fst (f c d)) t - snd (fst (f c d)) 0%R) <= del)%R)) as (e2 & He2 & HE2).
  { intros c d x y Hxy HP t Ht. apply HP. lra. }
  { intros c d Hc Hd. destruct (HD c d Hc Hd eq_refl) as (_ & H2 & _). apply (derivable_near _ _ _ (H2 eq_refl)); auto. }
  set (at2 := fun {A} (g : nat -> nat -> A) k => g (fst (pair_at nr K perm k)) (snd (pair_at nr K perm k))).
  exists (fun k t => - fst (fst (at2 _ f k)) t)%R, (fun k t => - snd (fst (at2 _ f k)) t)%R, (fun k t => - snd (at2 _ f k) t)%R,
    (fun k => - fst (fst (at2 _ s k)))%R, (fun k => - snd (fst (at2 _ s k)))%R, (fun k => - snd (at2 _ s k))%R, (Rmin e e2).
  split; [apply Rmin_pos; auto|].
  assert (HBd : forall k, k < Nat.min nr K -> fst (pair_at nr K perm k) < nr /\ snd (pair_at nr K perm k) < K).
  { intros k Hk. destruct C1 as (_ & C1 & _). apply (C1 (fst (pair_at nr K perm k)) (snd (pair_at nr K perm k))).
    rewrite <- surjective_pairing. unfold matching. apply in_map. apply in_seq. lia. }
  split; [|split].
  - intros t Ht. assert (Ht1 : (Rabs t < e)%R) by (eapply Rlt_le_trans; [exact Ht|apply Rmin_l]).
    assert (Ht2 : (Rabs t < e2)%R) by (eapply Rlt_le_trans; [exact Ht|apply Rmin_r]).
    destruct (HF t Ht1) as (mt & Emt & Hmt). destruct mt as [m sar]. cbn [fst snd] in Hmt.
    set (A := fun i j => base_metrics o (mat_of m i j) (nth j sar NaN)) in *.
    assert (EMt : bss_mats o (m, sar) = (fun i j => fst (fst (A i j)), fun i j => snd (fst (A i j)), fun i j => snd (A i j))) by reflexivity.
    assert (HI : forall c d, c < nr -> d < K -> snd (fst (A c d)) = Fin (snd (fst (f c d)) t)).
    { intros c d Hc Hd. destruct (Hmt c d Hc Hd eq_refl) as (_ & H2 & _). apply H2. reflexivity. }
    destruct (solve_perm_optimal sp Hsp Torch nr K (fun i j => snd (fst (A i j))) [fun i j => fst (fst (A i j)); fun i j => snd (A i j)])
      as (out' & outs' & perm' & EP' & Hc' & Ho').
    { intros c d Hc Hd. rewrite HI by auto. reflexivity. }
    destruct (solve_perm_outputs sp Hsp Torch nr K _ _ out' outs' perm' EP') as (_ & D2 & _ & _ & D5 & D6).
    assert (perm' = perm).
    { apply (matching_incl nr K); auto. apply HU; auto.
      specialize (Ho' (matching nr K perm) C1).
      assert (B1 : forall c d, c < nr -> d < K -> (Rabs (to_R (snd (fst (A c d))) - cost c d) <= del)%R).
      { intros c d Hc Hd. rewrite HI by auto. unfold cost. rewrite H00 by auto. simpl. auto. }
      pose proof (total_cost_near (fun i j => to_R (snd (fst (A i j)))) cost nr K del (matching nr K perm) B1 (proj1 (proj2 C1))) as N1.
      pose proof (total_cost_near (fun i j => to_R (snd (fst (A i j)))) cost nr K del (matching nr K perm') B1 (proj1 (proj2 Hc'))) as N2.
      rewrite (proj1 C1) in N1. rewrite (proj1 Hc') in N2. fold kk in N1, N2.
      apply Rabs_both in N1. apply Rabs_both in N2.
      destruct (Rle_dec (total_cost cost (matching nr K perm')) (total_cost cost (matching nr K perm))) as [Hle|Hn]; auto.
      exfalso. specialize (GAP (matching nr K perm') (proj1 Hc')).
      assert (gap <= total_cost cost (matching nr K perm') - total_cost cost (matching nr K perm))%R; [|lra].
      apply GAP; [|lra]. intros [i j] Hij. destruct (proj1 (proj2 Hc') i j Hij). apply in_prod; apply in_seq; lia. }
    subst perm'.
    do 3 eexists. split.
    + unfold bss_eval_sources. rewrite Emt. cbn [bind]. rewrite EMt. fold nr. rewrite arr_of_n, (proj1 (rays_shaped K T ys hs t Hys)), EP'. reflexivity.
    + intros k Hk. destruct (HBd k Hk) as [B1 B2]. destruct (Hmt _ _ B1 B2 eq_refl) as (M1 & M2 & M3).
      assert (NM : forall M : nat -> nat -> xr, nth k (map xneg (map (at_pair M) (matching nr K perm))) NaN =
        xneg (M (fst (pair_at nr K perm k)) (snd (pair_at nr K perm k)))).
      { intros M. change NaN with (xneg NaN). rewrite map_nth. f_equal. unfold matching. rewrite map_map.
        rewrite (nth_indep _ NaN (at_pair M (pair_at nr K perm 0))) by (rewrite map_length, seq_length; auto).
        rewrite (map_nth (fun x => at_pair M (pair_at nr K perm x))), seq_nth by auto. reflexivity. }
      rewrite D6, D5. cbn [map nth]. rewrite !NM. unfold at2, A. cbv zeta in M1, M2, M3.
      split; [intros U; rewrite M1 by (apply used_some; auto); reflexivity|].
      split; [rewrite M2 by auto; reflexivity|intros U; rewrite M3 by (apply used_some; auto); reflexivity].
  - intros k Hk. destruct (HBd k Hk) as [B1 B2]. destruct (HD _ _ B1 B2 eq_refl) as (M1 & M2 & M3). unfold at2.
    split; [intros U; apply derivable_pt_lim_opp, M1, used_some; auto|].
    split; [apply derivable_pt_lim_opp, M2; auto|intros U; apply derivable_pt_lim_opp, M3, used_some; auto].
  - rewrite ES.
    rewrite (Rsum_ext K _ (fun d => Rsum nr (fun c => perm_bw nr K perm (fun i => - weight vs i) c d * fst (fst (s c d))) +
      Rsum nr (fun c => perm_bw nr K perm (fun i => - weight vi i) c d * snd (fst (s c d))) +
      Rsum nr (fun c => perm_bw nr K perm (fun i => - weight va i) c d * snd (s c d)))%R).
    2:{ intros d Hd. rewrite <- !Rsum_plus. apply Rsum_ext. intros c Hc. unfold bss_weight.
        assert (EW : forall v, cot0 (cot (W v d) c) = perm_bw nr K perm (fun i => - weight v i)%R c d).
        { intros [v|]; [reflexivity|]. cbn. unfold perm_bw. rewrite Ropp_0. destruct (_ <? _), (_ =? _); reflexivity. }
        rewrite !EW. reflexivity. }
    rewrite !Rsum_plus.
    rewrite (perm_bw_sum nr K perm _ (fun c d => fst (fst (s c d))) C2 C4), (perm_bw_sum nr K perm _ (fun c d => snd (fst (s c d))) C2 C4),
      (perm_bw_sum nr K perm _ (fun c d => snd (s c d)) C2 C4).
    rewrite <- !Rsum_plus. apply Rsum_ext. intros k _. unfold at2. ring.
Qed.

(** ** compute_permutation = False *)
Theorem bss_noperm_gradient o ref T K ys c0 vs vi va : wf ref -> 0 < T -> shaped K T ys -> n_chan ref = K ->
  use_cg_iter o = None -> 0 < filter_length o -> (filter_length o = 1 -> a_len ref = T) ->
  (forall c, c < n_chan ref -> exists x, has_chan ref c x) ->
  sq_cos Torch o ref (arr_of T ys) = Ok c0 -> clamp_pos o ->
  (forall d, d < K -> norm2 (pre (zero_mean o) (nth d ys [])) <> norm_eps) ->
  (forall d, d < K ->
    (vs <> None -> db_smooth (clamp_db o) (fst (fst (unclamped o c0 d d)))) /\
    (vi <> None -> db_smooth (clamp_db o) (snd (fst (unclamped o c0 d d))) /\ snd (unclamped o c0 d d) <> PInf) /\
    (va <> None -> db_smooth (clamp_db o) (snd (unclamped o c0 d d)))) ->
  exists G, bss_noperm_grad o ref (arr_of T ys) vs vi va = Ok (map (map Fin) G) /\ shaped K T G /\
    forall hs, shaped K T hs -> exists (fs fi fa : nat -> R -> R) (ss si sa : nat -> R) e, (0 < e)%R /\
      (forall t, (Rabs t < e)%R -> exists sdrs sirs sars,
         bss_eval_sources_noperm Torch o ref (arr_of T (rays ys hs t)) = Ok (sdrs, sirs, sars) /\
         forall k, k < K -> (vs <> None -> nth k sdrs NaN = Fin (fs k t)) /\
           (vi <> None -> nth k sirs NaN = Fin (fi k t)) /\ (va <> None -> nth k sars NaN = Fin (fa k t))) /\
      (forall k, k < K -> (vs <> None -> derivable_pt_lim (fs k) 0 (ss k)) /\
         (vi <> None -> derivable_pt_lim (fi k) 0 (si k)) /\ (va <> None -> derivable_pt_lim (fa k) 0 (sa k))) /\
      Rsum K (fun d => Rsum T (fun t => smp (nth d G []) t * smp (nth d hs []) t))%R =
      Rsum K (fun k => weight vs k * ss k + weight vi k * si k + weight va k * sa k)%R.
Proof.
  intros Hwr HT Hys HK Hcg HL0 HL1 Hxs Hc0 Hcp HN Hsm.
  assert (EK : n_chan (arr_of T ys) = K) by (rewrite arr_of_n; apply Hys).
  set (W := fun (v : option (nat -> R)) d => option_map (fun v : nat -> R => fun _ : nat => - v d)%R v).
  assert (WN : forall v d, W v d <> None -> used v = true) by (intros [v|] d H; [reflexivity|contradiction H; reflexivity]).
  destruct (bss_lines o ref T K ys c0 Nat.eqb (used vs) (used vi) (used va) Hwr HT Hys Hcg HL0 HL1 Hxs Hc0 Hcp HN)
    with (ws := W vs) (wi := W vi) (wa := W va) as (G & SG & HG & HL).
  { intros c d Hc Hd E. apply Nat.eqb_eq in E. subst c. destruct (Hsm d Hd) as (H1 & H2 & H3).
    split; [intros E; apply H1, used_not; auto|]. split; [intros E; apply H2, used_not; auto|intros E; apply H3, used_not; auto]. }
  { intros d. apply WN. } { intros d. apply WN. } { intros d. apply WN. }
  exists G. split; [|split; [exact SG|]].
  { unfold bss_noperm_grad. rewrite (noperm_diag Torch o ref (arr_of T ys) HL0 Hcg) by congruence. rewrite Hc0. cbn [bind].
    destruct (bss_mats o c0) as [[? ?] ?]. cbn [bind]. rewrite EK.
    exact (bss_grad_list o ref T K ys Nat.eqb (W vs) (W vi) (W va) G SG HG). }
  intros hs Hhs. destruct (HL hs Hhs) as (f & s & e & He & HD & HF & ES). rewrite HK in HD, HF, ES.
  exists (fun k t => - fst (fst (f k k)) t)%R, (fun k t => - snd (fst (f k k)) t)%R, (fun k t => - snd (f k k) t)%R,
    (fun k => - fst (fst (s k k)))%R, (fun k => - snd (fst (s k k)))%R, (fun k => - snd (s k k))%R, e.
  split; auto. split; [|split].
  - intros t Ht. destruct (HF t Ht) as (mt & Emt & Hmt). destruct mt as [m sar]. cbn [fst snd] in Hmt.
    do 3 eexists. split.
    + rewrite (noperm_diag Torch o ref _ HL0 Hcg) by (rewrite arr_of_n, (proj1 (rays_shaped K T ys hs t Hys)); auto).
      rewrite Emt. cbn [bind bss_mats]. reflexivity.
    + intros k Hk. destruct (Hmt k k Hk Hk (Nat.eqb_refl k)) as (M1 & M2 & M3). unfold diag_out. rewrite HK, !nth_tab by auto. cbv beta.
      split; [intros U; rewrite M1 by (apply used_some; auto); reflexivity|].
      split; [intros U; rewrite M2 by (apply used_some; auto); reflexivity|intros U; rewrite M3 by (apply used_some; auto); reflexivity].
  - intros k Hk. destruct (HD k k Hk Hk (Nat.eqb_refl k)) as (M1 & M2 & M3).
    split; [intros U; apply derivable_pt_lim_opp, M1, used_some; auto|].
    split; [intros U; apply derivable_pt_lim_opp, M2, used_some; auto|intros U; apply derivable_pt_lim_opp, M3, used_some; auto].
  - rewrite ES. apply Rsum_ext. intros d Hd.
    rewrite (Rsum_ext K _ (fun c => if Nat.eqb c d then bss_weight (s c d) (cot (W vs d) c) (cot (W vi d) c) (cot (W va d) c) else 0%R))
      by (intros c _; rewrite Nat.eqb_sym; reflexivity).
    rewrite (Rsum_delta K d (fun c => bss_weight (s c d) (cot (W vs d) c) (cot (W vi d) c) (cot (W va d) c)) Hd).
    unfold bss_weight. assert (EW : forall v, cot0 (cot (W v d) d) = (- weight v d)%R) by (intros [v|]; simpl; ring).
    rewrite !EW. ring.
Qed.

(** ** Without the assumption that the derivative exists *)
(** cotangents of one pair that are not finite *)
Definition bad_pair (o : opts) (vs vi va : option (nat -> R)) (s a : R) : Prop :=
  (vi <> None /\ a = 0%R) \/
  (clamp_db o = None /\ ((vs <> None /\ (s = 0 \/ s = 1)%R) \/ (va <> None /\ (a = 0 \/ a = 1)%R) \/
    (vi <> None /\ (s = 0 \/ s = a)%R))).

Lemma acc_nan_l y : is_fin (acc (Some NaN) y) = false.
Proof. destruct y; reflexivity. Qed.
Lemma acc_nan_r x : is_fin (acc x (Some NaN)) = false.
Proof. destruct x as [x|]; [destruct x|]; reflexivity. Qed.
Lemma bad_pair_cots o s a vs vi va c : bad_pair o vs vi va s a ->
  let g := base_bw (clamp_db o) s a (cot vs c) (cot vi c) (cot va c) in is_fin (fst g) = false \/ is_fin (snd g) = false.
Proof.
  intros H. cbv zeta. unfold base_bw. cbn [fst snd].
  assert (Z : xdiv (Fin 0) (Fin 0) = NaN).
  { simpl. rewrite (proj2 (Reqb_true 0 0) eq_refl). reflexivity. }
  assert (HZ : vi <> None -> a = 0%R -> is_fin (acc (option_map (neg_sdr_bw (clamp_db o) s) (cot vs c))
    (option_map (fun g => xdiv g (Fin a)) (option_map (fun w => match xdiv (Fin s) (Fin a) with Fin r => neg_sdr_bw (clamp_db o) r w | _ => Fin 0 end) (cot vi c)))) = false).
  { intros U ->. destruct vi as [vi|]; [|contradiction]. cbn [cot option_map].
    replace (match xdiv (Fin s) (Fin 0) with Fin r => neg_sdr_bw (clamp_db o) r (vi c) | _ => Fin 0 end) with (Fin 0).
    - rewrite Z. apply acc_nan_r.
    - unfold xdiv. rewrite (proj2 (Reqb_true 0 0) eq_refl). destruct (Reqb s 0); auto. destruct (Rltb 0 s); auto. }
  destruct H as [[U H]|[Ecd [[U H]|[[U H]|[U H]]]]].
  - left. auto.
  - left. destruct vs as [vs|]; [|contradiction]. cbn [cot option_map]. rewrite Ecd, neg_sdr_bw_nan by auto. apply acc_nan_l.
  - right. destruct va as [va|]; [|contradiction]. cbn [cot option_map]. rewrite Ecd, neg_sdr_bw_nan by auto. apply acc_nan_l.
  - destruct (Req_dec a 0) as [Z'|N]; [left; auto|]. left. destruct vi as [vi|]; [|contradiction]. cbn [cot option_map].
    rewrite xdiv_fin by auto. rewrite Ecd. rewrite neg_sdr_bw_nan by (destruct H as [->| ->]; [left|right]; field; auto). apply acc_nan_r.
Qed.

(** ... and those that are, with clamp_db *)
Lemma clamped_pair_cots o D s a vs vi va c : clamp_db o = Some D -> (vi <> None -> a <> 0%R) ->
  exists gs ga, base_bw (clamp_db o) s a (cot vs c) (cot vi c) (cot va c) = (Fin gs, Fin ga).
Proof.
  intros Ecd Ha. unfold base_bw. rewrite Ecd.
  assert (HA : forall x y : option R, exists r, acc (option_map Fin x) (option_map Fin y) = Fin r).
  { intros [x|] [y|]; simpl; eexists; reflexivity. }
  assert (HV : forall r v, exists g, option_map (neg_sdr_bw (Some D) r) (cot v c) = option_map Fin g).
  { intros r [v|]; [|exists None; reflexivity]. destruct (neg_sdr_bw_clamped D r (v c)) as (g & E). exists (Some g). simpl. rewrite E. reflexivity. }
  destruct (HV s vs) as (g1 & ->), (HV a va) as (g2 & ->).
  destruct vi as [vi|]; cbn [cot option_map].
  - specialize (Ha ltac:(discriminate)). rewrite xdiv_fin by auto. destruct (neg_sdr_bw_clamped D (s / a) (vi c)) as (g & ->).
    rewrite !xdiv_fin by auto. cbn [xneg xmul].
    destruct (HA g1 (Some (g / a)%R)) as (r1 & E1), (HA g2 (Some (- g * (s / a / a))%R)) as (r2 & E2). cbn [option_map] in E1, E2.
    rewrite E1, E2. eauto.
  - destruct (HA g1 None) as (r1 & E1), (HA g2 None) as (r2 & E2). cbn [option_map] in E1, E2. rewrite E1, E2. eauto.
Qed.

Lemma slope_self Q y : bilin Q -> (norm_eps <= norm2 y)%R -> slope_Q Q y y = 0%R.
Proof.
  intros HB HN. unfold slope_Q. destruct (Rlt_dec (norm2 y) norm_eps); [lra|].
  assert (E : (gain y ^ 2 * Rsum (length y) (fun t => smp y t * smp y t) = 1)%R).
  { rewrite (Rsum_ext (length y) (fun t => smp y t * smp y t)%R (fun t => smp y t ^ 2)%R) by (intros; ring).
    rewrite <- (norm2_sq y). pose proof eps_pos. unfold gain. rewrite Rmax_left by lra. field. lra. }
  replace (gain y ^ 3)%R with (gain y * gain y ^ 2)%R by ring.
  replace (gain y * gain y ^ 2 * (2 * Q (smp (unit_of y)) (smp y)) * Rsum (length y) (fun t => smp y t * smp y t))%R
    with (gain y * (2 * Q (smp (unit_of y)) (smp y)) * (gain y ^ 2 * Rsum (length y) (fun t => smp y t * smp y t)))%R by ring.
  rewrite E. ring.
Qed.

Section Always.
  Context (o : opts) (ref : arr) (T K : nat) (ys : list (list R)) (c0 : list (list xr) * list xr) (cmp : nat -> nat -> bool).
  Context (Hwr : wf ref) (HT : 0 < T) (Hys : shaped K T ys) (Hcg : use_cg_iter o = None) (HL0 : 0 < filter_length o).
  Context (HL1 : filter_length o = 1 -> a_len ref = T).
  Context (Hxs : forall c, c < n_chan ref -> exists x, has_chan ref c x).
  Context (Hc0 : sq_cos Torch o ref (arr_of T ys) = Ok c0).
  Let nr := n_chan ref.

  Lemma chan_always d ws wi wa : d < K ->
    (exists g, bss_chan_grad o ref T (map Fin (nth d ys [])) (cmp d) ws wi wa = Ok (map Fin g) /\ length g = T /\
      ((norm_eps <= norm2 (pre (zero_mean o) (nth d ys [])))%R -> Rsum T (fun t => smp g t * smp (nth d ys []) t)%R = 0%R) /\
      (forall c s a, c < nr -> cmp d c = true -> mat_of (fst c0) c d = Fin s -> nth d (snd c0) NaN = Fin a -> ~ bad_pair o ws wi wa s a)) \/
    (bss_chan_grad o ref T (map Fin (nth d ys [])) (cmp d) ws wi wa = Ok (repeat NaN T) /\
      forall D, clamp_db o = Some D -> wi <> None /\ nth d (snd c0) NaN = Fin 0).
  Proof.
    intros Hd.
    destruct (bss_has_forms o ref T (arr_of T ys) c0 Hwr HT Hcg HL1 HL0 Hxs eq_refl Hc0) as (Qs & Qa & HF).
    pose proof (bf_clean o ref Hwr Hxs) as Hcl. pose proof (shaped_nth K T ys d Hys Hd) as Ld.
    pose proof (chan_grad_cases o ref T (nth d ys []) (cmp d) Qs Qa HF HT Ld Hcl ws wi wa) as CC.
    destruct HF as (HB1 & HB2 & F & _). destruct (F (arr_of T ys) (arr_of_wf K T ys HT Hys) eq_refl) as (m & sar & E & H).
    destruct (H d (nth d ys []) (arr_of_has K T ys d Hys Hd)) as [EA ES]. rewrite Hc0 in E. injection E as ->. cbn [fst snd].
    destruct (bss_cots _ _ _ _ _ ws wi wa) as [[gs ga]|] eqn:EC.
    - left. destruct CC as (g & E & L & Hg). exists g. split; auto. split; auto. split.
      + intros Hn. rewrite Hg by auto. rewrite (slope_self Qa) by auto. rewrite Rsum_zero; [ring|].
        intros c Hc. rewrite (slope_self (Qs c)); [ring|auto|auto].
      + intros c s a Hc Em E1 E2 HBad. rewrite ES in E1 by auto. rewrite EA in E2. injection E1 as <-. injection E2 as <-.
        assert (N : bss_cots (clamp_db o) (n_chan ref) (cmp d) (fun c => Qs c (nrm o (nth d ys [])) (nrm o (nth d ys [])))
          (Qa (nrm o (nth d ys [])) (nrm o (nth d ys []))) ws wi wa = None); [|congruence].
        apply bss_cots_none. exists c. split; [exact Hc|]. split; [exact Em|]. apply bad_pair_cots. exact HBad.
    - right. split; auto. intros D ED. apply bss_cots_none in EC. destruct EC as (c & Hc & Em & EC).
      assert (U : wi <> None).
      { intros ->. destruct (clamped_pair_cots o D (Qs c (nrm o (nth d ys [])) (nrm o (nth d ys []))) (Qa (nrm o (nth d ys [])) (nrm o (nth d ys [])))
          ws None wa c ED) as (g1 & g2 & Eb); [congruence|]. cbv zeta in EC. rewrite Eb in EC. destruct EC; discriminate. }
      split; auto. rewrite EA. f_equal. destruct (Req_dec (Qa (nrm o (nth d ys [])) (nrm o (nth d ys []))) 0) as [Z|N]; auto. exfalso.
      destruct (clamped_pair_cots o D (Qs c (nrm o (nth d ys [])) (nrm o (nth d ys []))) (Qa (nrm o (nth d ys [])) (nrm o (nth d ys [])))
          ws wi wa c ED) as (g1 & g2 & Eb); [auto|]. cbv zeta in EC. rewrite Eb in EC. destruct EC; discriminate.
  Qed.

  Lemma list_always (ws wi wa : nat -> option (nat -> R)) : exists G,
    mapM (fun d => bss_chan_grad o ref (a_len (arr_of T ys)) (nth d (a_chans (arr_of T ys)) []) (cmp d) (ws d) (wi d) (wa d)) (seq 0 K) = Ok G /\
    length G = K /\ forall d, d < K ->
      (exists g, nth d G [] = map Fin g /\ length g = T /\
        ((norm_eps <= norm2 (pre (zero_mean o) (nth d ys [])))%R -> Rsum T (fun t => smp g t * smp (nth d ys []) t)%R = 0%R) /\
        (forall c s a, c < nr -> cmp d c = true -> mat_of (fst c0) c d = Fin s -> nth d (snd c0) NaN = Fin a -> ~ bad_pair o (ws d) (wi d) (wa d) s a)) \/
      (nth d G [] = repeat NaN T /\ forall D, clamp_db o = Some D -> wi d <> None /\ nth d (snd c0) NaN = Fin 0).
  Proof.
    destruct (mapM_all_ok (fun d => bss_chan_grad o ref (a_len (arr_of T ys)) (nth d (a_chans (arr_of T ys)) []) (cmp d) (ws d) (wi d) (wa d)) (seq 0 K)) as (G & HG).
    { intros d Hd. apply in_seq in Hd. rewrite arr_of_chan. cbn [a_len arr_of].
      destruct (chan_always d (ws d) (wi d) (wa d) ltac:(lia)) as [(g & E & _)|(E & _)]; rewrite E; eauto. }
    exists G. split; auto. split; [apply mapM_length in HG; rewrite seq_length in HG; auto|].
    intros d Hd. pose proof (mapM_nth _ (seq 0 K) G 0 [] d HG) as HN. rewrite seq_length in HN. specialize (HN Hd).
    rewrite seq_nth in HN by auto. rewrite arr_of_chan in HN. cbn [Nat.add a_len arr_of] in HN.
    destruct (chan_always d (ws d) (wi d) (wa d) Hd) as [(g & E & L)|(E & L)]; rewrite E in HN; injection HN as HN; [left|right].
    - exists g. auto.
    - auto.
  Qed.
End Always.

Lemma bad_pair_iff o ws wi wa vs vi va s a : (ws <> None <-> vs <> None) -> (wi <> None <-> vi <> None) -> (wa <> None <-> va <> None) ->
  bad_pair o vs vi va s a -> bad_pair o ws wi wa s a.
Proof.
  intros A B C [[U H]|[E [[U H]|[[U H]|[U H]]]]].
  - left. split; auto. apply B; auto.
  - right. split; auto. left. split; auto. apply A; auto.
  - right. split; auto. right. left. split; auto. apply C; auto.
  - right. split; auto. right. right. split; auto. apply B; auto.
Qed.
Lemma option_map_some {A B} (f : A -> B) v : option_map f v <> None <-> v <> None.
Proof. destruct v; split; simpl; congruence. Qed.

(** The two cases of each estimate: a finite gradient, orthogonal to the estimate, or NaN. *)
Definition grad_cases (o : opts) (T : nat) (c0 : list (list xr) * list xr) (nr : nat) (cmp : nat -> bool) (vs vi va : option (nat -> R))
    (d : nat) (y : list R) (G : list xr) : Prop :=
  (exists g, G = map Fin g /\ length g = T /\
    ((norm_eps <= norm2 (pre (zero_mean o) y))%R -> Rsum T (fun t => smp g t * smp y t)%R = 0%R) /\
    (forall c s a, c < nr -> cmp c = true -> mat_of (fst c0) c d = Fin s -> nth d (snd c0) NaN = Fin a -> ~ bad_pair o vs vi va s a)) \/
  (G = repeat NaN T /\ forall D, clamp_db o = Some D -> vi <> None /\ nth d (snd c0) NaN = Fin 0).

Theorem bss_grad_cases sp o ref T K ys c0 vs vi va out : wf ref -> 0 < T -> shaped K T ys ->
  use_cg_iter o = None -> 0 < filter_length o -> (filter_length o = 1 -> a_len ref = T) ->
  (forall c, c < n_chan ref -> exists x, has_chan ref c x) ->
  sq_cos Torch o ref (arr_of T ys) = Ok c0 ->
  bss_eval_sources Torch sp o ref (arr_of T ys) = Ok out ->
  exists G, bss_grad sp o ref (arr_of T ys) vs vi va = Ok G /\ length G = K /\
    forall d, d < K -> grad_cases o T c0 (n_chan ref) (fun _ => true) vs vi va d (nth d ys []) (nth d G []).
Proof.
  intros Hwr HT Hys Hcg HL0 HL1 Hxs Hc0 HB.
  assert (EK : n_chan (arr_of T ys) = K) by (rewrite arr_of_n; apply Hys).
  unfold bss_eval_sources in HB. unfold bss_grad. rewrite Hc0 in *. cbn [bind] in *.
  destruct (bss_mats o c0) as [[nsdr nsir] nsar]. rewrite EK in *.
  destruct (solve_permutation Torch sp (n_chan ref) K nsir [nsdr; nsar]) as [[[? ?] perm]|ex]; [|discriminate]. cbn [bind].
  set (W := fun (v : option (nat -> R)) d => option_map (fun v => fun c => perm_bw (n_chan ref) K perm (fun i => - v i)%R c d) v).
  destruct (list_always o ref T K ys c0 (fun _ _ => true) Hwr HT Hys Hcg HL0 HL1 Hxs Hc0 (W vs) (W vi) (W va)) as (G & EG & LG & HG).
  exists G. split; [exact EG|]. split; auto. intros d Hd. destruct (HG d Hd) as [(g & E & L & O & B)|(E & B)]; [left|right].
  - exists g. repeat (split; auto). intros c s a Hc Em E1 E2 HBad. apply (B c s a Hc Em E1 E2).
    eapply bad_pair_iff; [| | |exact HBad]; apply option_map_some.
  - split; auto. intros D ED. destruct (B D ED) as [U Z]. split; auto. unfold W in U. apply option_map_some in U. exact U.
Qed.
Theorem noperm_grad_cases o ref T K ys c0 vs vi va : wf ref -> 0 < T -> shaped K T ys -> n_chan ref = K ->
  use_cg_iter o = None -> 0 < filter_length o -> (filter_length o = 1 -> a_len ref = T) ->
  (forall c, c < n_chan ref -> exists x, has_chan ref c x) ->
  sq_cos Torch o ref (arr_of T ys) = Ok c0 ->
  exists G, bss_noperm_grad o ref (arr_of T ys) vs vi va = Ok G /\ length G = K /\
    forall d, d < K -> grad_cases o T c0 (n_chan ref) (Nat.eqb d) vs vi va d (nth d ys []) (nth d G []).
Proof.
  intros Hwr HT Hys HK Hcg HL0 HL1 Hxs Hc0.
  assert (EK : n_chan (arr_of T ys) = K) by (rewrite arr_of_n; apply Hys).
  unfold bss_noperm_grad. rewrite (noperm_diag Torch o ref (arr_of T ys) HL0 Hcg) by congruence. rewrite Hc0. cbn [bind].
  destruct (bss_mats o c0) as [[? ?] ?]. cbn [bind]. rewrite EK.
  set (W := fun (v : option (nat -> R)) d => option_map (fun v : nat -> R => fun _ : nat => - v d)%R v).
  destruct (list_always o ref T K ys c0 Nat.eqb Hwr HT Hys Hcg HL0 HL1 Hxs Hc0 (W vs) (W vi) (W va)) as (G & EG & LG & HG).
  exists G. split; [exact EG|]. split; auto. intros d Hd. destruct (HG d Hd) as [(g & E & L & O & B)|(E & B)]; [left|right].
  - exists g. repeat (split; auto). intros c s a Hc Em E1 E2 HBad. apply (B c s a Hc Em E1 E2).
    eapply bad_pair_iff; [| | |exact HBad]; apply option_map_some.
  - split; auto. intros D ED. destruct (B D ED) as [U Z]. split; auto. unfold W in U. apply option_map_some in U. exact U.
Qed.

Lemma repeat_not_fin n g : 0 < n -> repeat NaN n <> map Fin g.
Proof. destruct n; [lia|]. destruct g; discriminate. Qed.

(** with clamp_db: finite unless the SIR is used and the SAR coherence of the estimate is 0 *)
Definition all_finite (K T : nat) (o : opts) (ys : list (list R)) (G : list (list xr)) : Prop :=
  exists G', G = map (map Fin) G' /\ shaped K T G' /\
    forall d, d < K -> (norm_eps <= norm2 (pre (zero_mean o) (nth d ys [])))%R ->
      Rsum T (fun t => smp (nth d G' []) t * smp (nth d ys []) t)%R = 0%R.
Lemma cases_finite o T K c0 nr cmp vs vi va ys G D : length G = K -> clamp_db o = Some D ->
  (vi <> None -> forall d, d < K -> nth d (snd c0) NaN <> Fin 0) ->
  (forall d, d < K -> grad_cases o T c0 nr (cmp d) vs vi va d (nth d ys []) (nth d G [])) -> all_finite K T o ys G.
Proof.
  intros LG HD HS HG.
  assert (HC : forall d, d < K -> exists g, nth d G [] = map Fin g /\ length g = T /\
    ((norm_eps <= norm2 (pre (zero_mean o) (nth d ys [])))%R -> Rsum T (fun t => smp g t * smp (nth d ys []) t)%R = 0%R)).
  { intros d Hd. destruct (HG d Hd) as [(g & E & L & O & _)|(_ & B)]; [eauto|]. destruct (B D HD) as [U Z]. exfalso. exact (HS U d Hd Z). }
  apply (fin_choice []) in HC. destruct HC as (g & Hg). exists (map g (seq 0 K)).
  assert (NG : forall d, d < K -> nth d (map g (seq 0 K)) [] = g d).
  { intros d Hd. rewrite (nth_indep _ [] (g 0)) by (rewrite map_length, seq_length; auto). rewrite map_nth, seq_nth by auto. reflexivity. }
  split; [|split].
  - apply (nth_ext _ _ [] []); [rewrite !map_length, seq_length; auto|]. intros d Hd. rewrite LG in Hd.
    destruct (Hg d Hd) as [-> _]. change (@nil xr) with (map Fin []). rewrite map_nth, NG by auto. reflexivity.
  - split; [rewrite map_length, seq_length; auto|]. apply Forall_forall. intros x Hx. apply in_map_iff in Hx.
    destruct Hx as (d & <- & Hd). apply in_seq in Hd. apply Hg. lia.
  - intros d Hd HN. rewrite NG by auto. apply Hg; auto.
Qed.
Theorem bss_grad_clamped sp o ref T K ys c0 vs vi va out D : wf ref -> 0 < T -> shaped K T ys ->
  use_cg_iter o = None -> 0 < filter_length o -> (filter_length o = 1 -> a_len ref = T) ->
  (forall c, c < n_chan ref -> exists x, has_chan ref c x) ->
  sq_cos Torch o ref (arr_of T ys) = Ok c0 -> clamp_db o = Some D ->
  (vi <> None -> forall d, d < K -> nth d (snd c0) NaN <> Fin 0) ->
  (bss_eval_sources Torch sp o ref (arr_of T ys) = Ok out ->
   exists G, bss_grad sp o ref (arr_of T ys) vs vi va = Ok G /\ all_finite K T o ys G) /\
  (n_chan ref = K -> exists G, bss_noperm_grad o ref (arr_of T ys) vs vi va = Ok G /\ all_finite K T o ys G).
Proof.
  intros Hwr HT Hys Hcg HL0 HL1 Hxs Hc0 HD HS. split.
  - intros HB. destruct (bss_grad_cases sp o ref T K ys c0 vs vi va out Hwr HT Hys Hcg HL0 HL1 Hxs Hc0 HB) as (G & E & L & H).
    exists G. split; auto. eapply (cases_finite o T K c0 _ (fun _ _ => true)); eauto.
  - intros HK. destruct (noperm_grad_cases o ref T K ys c0 vs vi va Hwr HT Hys HK Hcg HL0 HL1 Hxs Hc0) as (G & E & L & H).
    exists G. split; auto. eapply (cases_finite o T K c0 _ Nat.eqb); eauto.
Qed.

(** NaN *)
Lemma cases_nan o T c0 nr cmp vs vi va d y G c s a : grad_cases o T c0 nr cmp vs vi va d y G ->
  c < nr -> cmp c = true -> mat_of (fst c0) c d = Fin s -> nth d (snd c0) NaN = Fin a -> bad_pair o vs vi va s a -> G = repeat NaN T.
Proof. intros [(g & _ & _ & _ & B)|(E & _)] Hc Em E1 E2 HB; auto. exfalso. exact (B c s a Hc Em E1 E2 HB). Qed.
Theorem bss_grad_nan sp o ref T K ys c0 vs vi va out : wf ref -> 0 < T -> shaped K T ys ->
  use_cg_iter o = None -> 0 < filter_length o -> (filter_length o = 1 -> a_len ref = T) ->
  (forall c, c < n_chan ref -> exists x, has_chan ref c x) ->
  sq_cos Torch o ref (arr_of T ys) = Ok c0 ->
  (bss_eval_sources Torch sp o ref (arr_of T ys) = Ok out ->
   exists G, bss_grad sp o ref (arr_of T ys) vs vi va = Ok G /\ length G = K /\
     forall c d s a, c < n_chan ref -> d < K -> mat_of (fst c0) c d = Fin s -> nth d (snd c0) NaN = Fin a ->
       bad_pair o vs vi va s a -> nth d G [] = repeat NaN T) /\
  (n_chan ref = K -> exists G, bss_noperm_grad o ref (arr_of T ys) vs vi va = Ok G /\ length G = K /\
     forall d s a, d < K -> mat_of (fst c0) d d = Fin s -> nth d (snd c0) NaN = Fin a ->
       bad_pair o vs vi va s a -> nth d G [] = repeat NaN T).
Proof.
  intros Hwr HT Hys Hcg HL0 HL1 Hxs Hc0. split.
  - intros HB. destruct (bss_grad_cases sp o ref T K ys c0 vs vi va out Hwr HT Hys Hcg HL0 HL1 Hxs Hc0 HB) as (G & E & L & H).
    exists G. split; auto. split; auto. intros c d s a Hc Hd. apply (cases_nan _ _ _ _ _ _ _ _ _ _ _ _ _ _ (H d Hd) Hc eq_refl).
  - intros HK. destruct (noperm_grad_cases o ref T K ys c0 vs vi va Hwr HT Hys HK Hcg HL0 HL1 Hxs Hc0) as (G & E & L & H).
    exists G. split; auto. split; auto. intros d s a Hd. rewrite <- HK in Hd.
    apply (cases_nan _ _ _ _ _ _ _ _ _ _ _ d _ _ (H d ltac:(lia)) Hd (Nat.eqb_refl d)).
Qed.

(** an estimate orthogonal to the (delayed) references, for example a silent one *)
Theorem bss_grad_orthogonal o ref T K ys c0 vs vi va xs : wf ref -> 0 < T -> shaped K T ys -> n_chan ref = K ->
  use_cg_iter o = None -> 1 <= filter_length o <= Nat.max (a_len ref) T -> (filter_length o = 1 -> a_len ref = T) ->
  has_chans ref xs -> sq_cos Torch o ref (arr_of T ys) = Ok c0 -> vi <> None ->
  exists G, bss_noperm_grad o ref (arr_of T ys) vs vi va = Ok G /\ length G = K /\
    forall d, d < K ->
      (forall c, c < n_chan ref -> orthogonal_to (filter_length o) (pre (zero_mean o) (xs c)) (pre (zero_mean o) (nth d ys []))) ->
      nth d G [] = repeat NaN T.
Proof.
  intros Hwr HT Hys HK Hcg HL HL1 Hx Hc0 Hvi. destruct c0 as [m sar].
  assert (Hxs : forall c, c < n_chan ref -> exists x, has_chan ref c x) by (intros c Hc; exists (xs c); apply has_chans_at; auto).
  destruct (bss_grad_nan (fun _ _ _ => []) o ref T K ys (m, sar) vs vi va ([], [], [], []) Hwr HT Hys Hcg ltac:(lia) HL1 Hxs Hc0) as [_ H].
  destruct (H HK) as (G & E & L & HG). exists G. split; auto. split; auto. intros d Hd Ho.
  pose proof (arr_of_wf K T ys HT Hys) as We. pose proof (arr_of_has K T ys d Hys Hd) as Hy.
  apply (HG d 0%R 0%R Hd).
  - apply (orth_coh Torch o ref (arr_of T ys) m d d (xs d) (nth d ys [])); auto.
    + apply has_chans_at; auto. rewrite HK. exact Hd.
    + apply Ho. rewrite HK. exact Hd.
    + apply (sq_cos_sdr' Torch o ref (arr_of T ys) m sar); auto. lia.
  - apply (orth_sar Torch o ref (arr_of T ys) m sar d xs (nth d ys [])); auto.
  - left. auto.
Qed.
