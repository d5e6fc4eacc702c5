(** * Theorems on the gradient of sdr, sdr_pit_loss and sdr_loss *)
From Coq Require Import Reals Lra.
From Verif Require Import Prelude ExtReal Sums Spec Helpers Metrics SpecSig PrepProofs StatsProofs DbProofs MetricsProofs ProjTheorems MetricTheorems
  Cells Delay Diag HungarianTop Outputs PermProofs Invariance Gradient Autograd AutogradEntry AutogradProofs AutogradTheorems AutogradCg AutogradCgTheorems AutogradPit
  AutogradPitProofs.
Local Open Scope nat_scope.

(** ** Finitely many assignments *)
Lemma finite_gap (U : list (nat * nat)) k : forall f : list (nat * nat) -> R,
  exists gap, (0 < gap)%R /\ forall l, length l = k -> incl l U -> (0 < f l)%R -> (gap <= f l)%R.
Proof.
  induction k as [|k IH]; intros f.
  - destruct (Rlt_dec 0 (f [])) as [H|H].
    + exists (f []). split; auto. intros [|? ?]; simpl; try lia. intros; lra.
    + exists 1%R. split; [lra|]. intros [|? ?]; simpl; try lia. intros; lra.
  - assert (HU : forall V, incl V U -> exists gap, (0 < gap)%R /\
       forall u l, In u V -> length l = k -> incl l U -> (0 < f (u :: l))%R -> (gap <= f (u :: l))%R).
    { induction V as [|u V IV]; intros HV; [exists 1%R; split; [lra|intros u l []]|].
      destruct IV as (g1 & G1 & H1); [intros x Hx; apply HV; right; auto|].
      destruct (IH (fun l => f (u :: l))) as (g2 & G2 & H2).
      exists (Rmin g1 g2). split; [apply Rmin_pos; auto|].
      intros u' l [<-|Hu] Ll Hl Hp.
      - eapply Rle_trans; [apply Rmin_r|]. auto.
      - eapply Rle_trans; [apply Rmin_l|]. auto. }
    destruct (HU U (incl_refl U)) as (g & G & H). exists g. split; auto.
    intros [|u l]; simpl; try lia. intros Ll Hl Hp. apply H; auto.
    + apply Hl. left; auto.
    + intros x Hx. apply Hl. right; auto.
Qed.
Lemma total_cost_near (f g : nat -> nat -> R) n m del l : (forall c d, c < n -> d < m -> (Rabs (f c d - g c d) <= del)%R) ->
  (forall i j, In (i, j) l -> i < n /\ j < m) ->
  (Rabs (total_cost f l - total_cost g l) <= INR (length l) * del)%R.
Proof.
  intros H. unfold total_cost. induction l as [|[i j] l IH]; intros Hl.
  - simpl. rewrite Rminus_0_r, Rabs_R0. lra.
  - cbn [map sumR length fst snd]. rewrite S_INR.
    destruct (Hl i j (or_introl eq_refl)) as [Hi Hj]. specialize (H i j Hi Hj).
    specialize (IH (fun a b Hab => Hl a b (or_intror Hab))).
    replace (f i j + sumR (map (fun p => f (fst p) (snd p)) l) - (g i j + sumR (map (fun p => g (fst p) (snd p)) l)))%R
      with ((f i j - g i j) + (sumR (map (fun p => f (fst p) (snd p)) l) - sumR (map (fun p => g (fst p) (snd p)) l)))%R by ring.
    eapply Rle_trans; [apply Rabs_triang|]. lra.
Qed.
Lemma matching_incl nr ne perm perm' : length perm = Nat.min nr ne -> length perm' = Nat.min nr ne ->
  incl (matching nr ne perm') (matching nr ne perm) -> perm' = perm.
Proof.
  intros L L' H. apply (nth_ext _ _ 0 0); [congruence|]. intros i Hi. rewrite L' in Hi.
  assert (Hin : In (pair_at nr ne perm' i) (matching nr ne perm)).
  { apply H. unfold matching. apply in_map. apply in_seq. lia. }
  unfold matching in Hin. apply in_map_iff in Hin. destruct Hin as (j & E & Hj).
  unfold pair_at in E. destruct (nr <=? ne); injection E; congruence.
Qed.
Lemma derivable_near f l del : derivable_pt_lim f 0 l -> (0 < del)%R ->
  exists e, (0 < e)%R /\ forall t, (Rabs t < e)%R -> (Rabs (f t - f 0%R) <= del)%R.
Proof.
  intros HD Hd. assert (HC : continuity_pt f 0) by (apply derivable_continuous_pt; exists l; exact HD).
  destruct (HC del Hd) as (e & He & HE). exists e. split; auto. intros t Ht.
  destruct (Req_dec t 0) as [->|N]; [unfold Rminus; rewrite Rplus_opp_r, Rabs_R0; lra|].
  left. apply (HE t). split; [split; [exact I|auto]|]. simpl. unfold R_dist. rewrite Rminus_0_r. auto.
Qed.

(** the cotangents of the matrix, summed *)
Lemma perm_bw_sum nr ne perm v (s : nat -> nat -> R) : length perm = Nat.min nr ne ->
  (forall p, In p perm -> p < Nat.max nr ne) ->
  Rsum ne (fun d => Rsum nr (fun c => perm_bw nr ne perm v c d * s c d))%R =
  Rsum (Nat.min nr ne) (fun k => v k * s (fst (pair_at nr ne perm k)) (snd (pair_at nr ne perm k)))%R.
Proof.
  intros L Hb. unfold perm_bw, pair_at.
  assert (HR : forall n k (x : nat -> R), k < n -> Rsum n (fun j => if Nat.eqb k j then x j else 0%R) = x k).
  { intros n k x Hk. rewrite (Rsum_ext n _ (fun j => if Nat.eqb j k then x j else 0%R)) by (intros j _; rewrite Nat.eqb_sym; reflexivity).
    apply Rsum_delta. auto. }
  destruct (Nat.ltb_spec ne nr) as [H|H].
  - replace (Nat.leb nr ne) with false by (symmetry; apply Nat.leb_gt; lia). rewrite Nat.min_r by lia. simpl.
    apply Rsum_ext. intros d Hd.
    assert (Hp : nth d perm nr < nr) by (specialize (Hb (nth d perm nr) ltac:(apply nth_In; lia)); lia).
    rewrite (Rsum_ext nr _ (fun c => if Nat.eqb (nth d perm nr) c then (v d * s c d)%R else 0%R))
      by (intros c _; destruct (Nat.eqb_spec (nth d perm nr) c); ring).
    rewrite (HR nr (nth d perm nr) (fun c => v d * s c d)%R Hp). rewrite (nth_indep perm nr 0) by lia. reflexivity.
  - replace (Nat.leb nr ne) with true by (symmetry; apply Nat.leb_le; lia). rewrite Nat.min_l by lia. simpl.
    rewrite Rsum_swap. apply Rsum_ext. intros c Hc.
    assert (Hp : nth c perm ne < ne) by (specialize (Hb (nth c perm ne) ltac:(apply nth_In; lia)); lia).
    rewrite (Rsum_ext ne _ (fun d => if Nat.eqb (nth c perm ne) d then (v c * s c d)%R else 0%R))
      by (intros d _; destruct (Nat.eqb_spec (nth c perm ne) d); ring).
    rewrite (HR ne (nth c perm ne) (fun d => v c * s c d)%R Hp). rewrite (nth_indep perm ne 0) by lia. reflexivity.
Qed.

Lemma Rabs_both x a : (Rabs x <= a)%R -> (- a <= x <= a)%R.
Proof. unfold Rabs. destruct (Rcase_abs x); lra. Qed.

Lemma sumR_seq g n : sumR (map g (seq 0 n)) = Rsum n g.
Proof.
  induction n as [|n IH]; auto. rewrite seq_S, map_app, sumR_app, IH. simpl. rewrite Rplus_0_r. reflexivity.
Qed.
Lemma total_cost_matching c nr ne perm : total_cost c (matching nr ne perm) =
  Rsum (Nat.min nr ne) (fun k => c (fst (pair_at nr ne perm k)) (snd (pair_at nr ne perm k))).
Proof. unfold total_cost, matching. rewrite map_map. apply sumR_seq. Qed.
Lemma derivable_sum n (f : nat -> R -> R) s x : (forall k, k < n -> derivable_pt_lim (f k) x (s k)) ->
  derivable_pt_lim (fun t => Rsum n (fun k => f k t)) x (Rsum n s).
Proof.
  induction n as [|n IH]; intros H; [apply derivable_pt_lim_const|].
  apply (derivable_pt_lim_plus (fun t => Rsum n (fun k => f k t)) (f n)); auto.
Qed.

Lemma grad_list o ref T K ys W G : shaped K T ys -> shaped K T G ->
  (forall d, d < K -> est_grad_cg o ref T (map Fin (nth d ys [])) (W d) = Ok (map Fin (nth d G []))) ->
  mapM (fun d => est_grad_cg o ref (a_len (arr_of T ys)) (nth d (a_chans (arr_of T ys)) []) (W d)) (seq 0 (n_chan (arr_of T ys))) =
  Ok (map (map Fin) G).
Proof.
  intros Hys [LG _] H. rewrite arr_of_n. replace (length ys) with K by (symmetry; apply Hys).
  rewrite (mapM_ok _ (fun d => map Fin (nth d G []))).
  - f_equal. rewrite <- LG. symmetry. apply (map_seq (map Fin) G []).
  - intros d Hd. apply in_seq in Hd. rewrite arr_of_chan. apply H. lia.
Qed.


Section Pit.
  Context (sp : scipy_lsa) (Hsp : lsa_contract sp).
  Context (o : opts) (ref : arr) (T K : nat) (ys : list (list R)) (m0 : list (list xr)).
  Context (Hwr : wf ref) (HT : 0 < T) (Hys : shaped K T ys) (HL1 : filter_length o = 1 -> a_len ref = T).
  Context (Hxs : forall c, c < n_chan ref -> exists x, has_chan ref c x).
  Context (Hm0 : pairwise_sdr_loss Torch (with_clamp o None) (arr_of T ys) ref = Ok m0).
  Context (Hsm : forall d, d < K -> smooth o ref m0 d (nth d ys [])).
  Let nr := n_chan ref.

  Lemma line_grads (W : nat -> nat -> R) : exists G, shaped K T G /\
    (forall d, d < K -> est_grad_cg o ref T (map Fin (nth d ys [])) (W d) = Ok (map Fin (nth d G []))) /\
    forall hs, shaped K T hs -> exists (f : nat -> nat -> R -> R) (s : nat -> nat -> R) e, (0 < e)%R /\
      (forall c d, c < nr -> d < K -> derivable_pt_lim (f c d) 0 (s c d)) /\
      (forall t, (Rabs t < e)%R -> exists m, pairwise_sdr_loss Torch o (arr_of T (rays ys hs t)) ref = Ok m /\
         forall c d, c < nr -> d < K -> mat_of m c d = Fin (f c d t)) /\
      Rsum K (fun d => Rsum T (fun t => smp (nth d G []) t * smp (nth d hs []) t))%R =
      Rsum K (fun d => Rsum nr (fun c => W d c * s c d))%R.
  Proof.
    assert (HG : forall d, d < K -> exists g, est_grad_cg o ref T (map Fin (nth d ys [])) (W d) = Ok (map Fin g) /\ length g = T).
    { intros d Hd. destruct (line_losses o ref T K ys m0 Hwr HT Hys HL1 Hxs Hm0 Hsm ys Hys) as (f & s & e & _ & _ & _ & H).
      destruct (H d (W d) Hd) as (g & E & L & _). eauto. }
    apply (fin_choice []) in HG. destruct HG as (G & HG).
    assert (NG : forall d, d < K -> nth d (map G (seq 0 K)) [] = G d).
    { intros d Hd. rewrite (nth_indep _ [] (G 0)) by (rewrite map_length, seq_length; auto). rewrite map_nth, seq_nth by auto. reflexivity. }
    exists (map G (seq 0 K)). split; [|split].
    - split; [rewrite map_length, seq_length; auto|]. apply Forall_forall. intros x Hx. apply in_map_iff in Hx.
      destruct Hx as (d & <- & Hd). apply in_seq in Hd. apply HG. lia.
    - intros d Hd. rewrite NG by auto. apply HG; auto.
    - intros hs Hhs. destruct (line_losses o ref T K ys m0 Hwr HT Hys HL1 Hxs Hm0 Hsm hs Hhs) as (f & s & e & He & HD & HF & H).
      exists f, s, e. split; auto. split; auto. split; auto.
      apply Rsum_ext. intros d Hd. rewrite NG by auto. destruct (H d (W d) Hd) as (g & E & _ & Eg). refine (eq_trans _ Eg).
      destruct (HG d Hd) as [E' _]. rewrite E' in E. injection E as E. apply map_Fin_inj in E. subst g. reflexivity.
  Qed.

  Lemma rays_0 hs : shaped K T hs -> rays ys hs 0 = ys.
  Proof.
    intros Hhs. apply (nth_ext _ _ [] []); [unfold rays; rewrite map_length, seq_length; auto|].
    intros d Hd. unfold rays in Hd. rewrite map_length, seq_length in Hd. rewrite nth_rays by auto.
    apply smp_ext; [apply ray_length|]. intros k. rewrite smp_ray; [ring|].
    destruct Hys as [LK _]. rewrite (shaped_nth K T hs), (shaped_nth K T ys) by (auto; lia). reflexivity.
  Qed.

  Theorem sdr_gradient cs v vals perm m :
    sdr Torch sp o cs ref (arr_of T ys) = Ok (vals, perm) ->
    pairwise_sdr_loss Torch o (arr_of T ys) ref = Ok m ->
    (forall l, complete_assignment nr K l ->
       (total_cost (fun c d => to_R (mat_of m c d)) l <= total_cost (fun c d => to_R (mat_of m c d)) (matching nr K perm))%R ->
       incl l (matching nr K perm)) ->
    exists G, sdr_grad sp o cs ref (arr_of T ys) v = Ok (map (map Fin) G) /\ shaped K T G /\
      forall hs, shaped K T hs -> exists (f : nat -> R -> R) (s : nat -> R) e, (0 < e)%R /\
        (forall t, (Rabs t < e)%R -> exists vals', sdr Torch sp o cs ref (arr_of T (rays ys hs t)) = Ok (vals', perm) /\
           length vals' = Nat.min nr K /\ forall k, k < Nat.min nr K -> nth k vals' NaN = Fin (f k t)) /\
        (forall k, k < Nat.min nr K -> derivable_pt_lim (f k) 0 (s k)) /\
        Rsum K (fun d => Rsum T (fun t => smp (nth d G []) t * smp (nth d hs []) t))%R =
        Rsum (Nat.min nr K) (fun k => v k * s k)%R.
  Proof.
    intros HS Hm HU.
    assert (EK : n_chan (arr_of T ys) = K) by (rewrite arr_of_n; apply Hys).
    pose proof HS as HS0. unfold sdr in HS0. rewrite Hm in HS0. cbn [bind] in HS0. fold nr in HS0. rewrite EK in HS0.
    destruct (solve_permutation Torch sp nr K (mat_of m) []) as [[[out outs] perm0]|ex] eqn:EP; [|discriminate].
    cbn [bind] in HS0. injection HS0 as Ev ->.
    destruct (solve_perm_outputs sp Hsp Torch nr K (mat_of m) [] out outs perm EP) as (C1 & C2 & C3 & C4 & C5 & _).
    set (v' := fun k => if cs then v k else (- v k)%R).
    destruct (line_grads (fun d c => perm_bw nr K perm v' c d)) as (G & SG & HG & HL).
    exists G. split; [|split; [exact SG|]].
    { unfold sdr_grad. rewrite Hm. cbn [bind]. fold nr. rewrite EK, EP. cbn [bind].
      pose proof (grad_list o ref T K ys (fun d c => perm_bw nr K perm v' c d) G Hys SG HG) as Q. rewrite EK in Q. exact Q. }
    intros hs Hhs. destruct (HL hs Hhs) as (f & s & e & He & HD & HF & ES).
    (* the losses at 0 *)
    assert (H00 : forall c d, c < nr -> d < K -> to_R (mat_of m c d) = f c d 0%R).
    { intros c d Hc Hd. destruct (HF 0%R) as (m' & E' & H'); [rewrite Rabs_R0; auto|].
      rewrite rays_0 in E' by auto. rewrite Hm in E'. injection E' as <-. rewrite H' by auto. reflexivity. }
    set (c0 := fun c d => to_R (mat_of m c d)) in *.
    destruct (finite_gap (list_prod (seq 0 nr) (seq 0 K)) (Nat.min nr K)
      (fun l => total_cost c0 l - total_cost c0 (matching nr K perm))%R) as (gap & Hgap & GAP).
    set (kk := INR (Nat.min nr K)). assert (0 <= kk)%R by apply pos_INR.
    set (del := (gap / (2 * kk + 1))%R). assert (Hdel : (0 < del)%R) by (apply Rdiv_lt_0_compat; lra).
    assert (Hkd : (2 * (kk * del) < gap)%R).
    { assert (E : ((2 * kk + 1) * del = gap)%R) by (unfold del; field; lra). lra. }
    destruct (common_bound2 nr K (fun c d e' => forall t, (Rabs t < e')%R -> (Rabs (f c d t - f c d 0%R) <= del)%R)) as (e2 & He2 & HE2).
    { intros c d x y Hxy HP t Ht. apply HP. lra. }
    { intros c d Hc Hd. apply (derivable_near _ (s c d)); auto. }
    set (sg := fun x : R => if cs then x else (- x)%R).
    exists (fun k t => sg (f (fst (pair_at nr K perm k)) (snd (pair_at nr K perm k)) t)),
      (fun k => sg (s (fst (pair_at nr K perm k)) (snd (pair_at nr K perm k)))), (Rmin e e2).
    split; [apply Rmin_pos; auto|].
    assert (HB : forall k, k < Nat.min nr K -> fst (pair_at nr K perm k) < nr /\ snd (pair_at nr K perm k) < K).
    { intros k Hk. destruct C1 as (_ & C1 & _). apply (C1 (fst (pair_at nr K perm k)) (snd (pair_at nr K perm k))).
      rewrite <- surjective_pairing. unfold matching. apply in_map. apply in_seq. lia. }
    split; [|split].
    - intros t Ht. assert (Ht1 : (Rabs t < e)%R) by (eapply Rlt_le_trans; [exact Ht|apply Rmin_l]).
      assert (Ht2 : (Rabs t < e2)%R) by (eapply Rlt_le_trans; [exact Ht|apply Rmin_r]).
      destruct (HF t Ht1) as (mt & Emt & Hmt).
      destruct (solve_perm_optimal sp Hsp Torch nr K (mat_of mt) []) as (out' & outs' & perm' & EP' & Hc' & Ho').
      { intros c d Hc Hd. rewrite Hmt by auto. reflexivity. }
      destruct (solve_perm_outputs sp Hsp Torch nr K (mat_of mt) [] out' outs' perm' EP') as (_ & D2 & _ & _ & D5 & _).
      assert (perm' = perm).
      { apply (matching_incl nr K); auto. apply HU; auto.
        specialize (Ho' (matching nr K perm) C1).
        assert (B1 : forall c d, c < nr -> d < K -> (Rabs (to_R (mat_of mt c d) - c0 c d) <= del)%R).
        { intros c d Hc Hd. rewrite Hmt by auto. unfold c0. rewrite H00 by auto. simpl. auto. }
        pose proof (total_cost_near (fun i j => to_R (mat_of mt i j)) c0 nr K del (matching nr K perm) B1 (proj1 (proj2 C1))) as N1.
        pose proof (total_cost_near (fun i j => to_R (mat_of mt i j)) c0 nr K del (matching nr K perm') B1 (proj1 (proj2 Hc'))) as N2.
        rewrite (proj1 C1) in N1. rewrite (proj1 Hc') in N2. fold kk in N1, N2.
        apply Rabs_both in N1. apply Rabs_both in N2.
        destruct (Rle_dec (total_cost c0 (matching nr K perm')) (total_cost c0 (matching nr K perm))) as [Hle|Hn]; auto.
        exfalso. specialize (GAP (matching nr K perm') (proj1 Hc')).
        assert (gap <= total_cost c0 (matching nr K perm') - total_cost c0 (matching nr K perm))%R; [|lra].
        apply GAP; [|lra]. intros [i j] Hij. destruct (proj1 (proj2 Hc') i j Hij). apply in_prod; apply in_seq; lia. }
      subst perm'.
      exists (if cs then out' else map xneg out'). split; [|split].
      + unfold sdr. rewrite Emt. cbn [bind]. fold nr. rewrite arr_of_n, (proj1 (rays_shaped K T ys hs t Hys)), EP'. reflexivity.
      + rewrite D5. unfold matching. destruct cs; rewrite ?map_length, ?seq_length; auto.
      + intros k Hk. destruct (HB k Hk) as [B1 B2].
        assert (N : nth k out' NaN = Fin (f (fst (pair_at nr K perm k)) (snd (pair_at nr K perm k)) t)).
        { rewrite D5. unfold matching. rewrite map_map.
          rewrite (nth_indep _ NaN (at_pair (mat_of mt) (pair_at nr K perm 0))) by (rewrite map_length, seq_length; auto).
          rewrite (map_nth (fun x => at_pair (mat_of mt) (pair_at nr K perm x))), seq_nth by auto. simpl. unfold at_pair. apply Hmt; auto. }
        unfold sg. destruct cs; auto. change NaN with (xneg NaN). rewrite map_nth, N. reflexivity.
    - intros k Hk. destruct (HB k Hk). unfold sg. destruct cs; auto.
      apply (derivable_pt_lim_opp (f (fst (pair_at nr K perm k)) (snd (pair_at nr K perm k)))). auto.
    - rewrite ES, (perm_bw_sum nr K perm v' s C2 C4). apply Rsum_ext. intros k _. unfold v', sg. destruct cs; ring.
  Qed.

  (** at ties too, the total loss decreases at least as fast as the gradient says *)
  Theorem pit_descent vals : sdr_pit_loss Torch sp o (arr_of T ys) ref = Ok vals ->
    exists G, sdr_pit_loss_grad sp o (arr_of T ys) ref (fun _ => 1%R) = Ok (map (map Fin) G) /\ shaped K T G /\
      forall hs, shaped K T hs -> forall eps, (0 < eps)%R -> exists e, (0 < e)%R /\
        forall t, (0 < t < e)%R -> exists vals', sdr_pit_loss Torch sp o (arr_of T (rays ys hs t)) ref = Ok vals' /\
          (forall x, In x vals' -> is_fin x = true) /\
          (sumR (map to_R vals') <= sumR (map to_R vals) +
             t * (Rsum K (fun d => Rsum T (fun t => smp (nth d G []) t * smp (nth d hs []) t)) + eps))%R.
  Proof.
    intros HS.
    assert (EK : n_chan (arr_of T ys) = K) by (rewrite arr_of_n; apply Hys).
    unfold sdr_pit_loss, sdr in HS. fold nr in HS. rewrite EK in HS.
    destruct (pairwise_sdr_loss Torch o (arr_of T ys) ref) as [m|] eqn:Hm; [|discriminate]. cbn [bind] in HS.
    destruct (solve_permutation Torch sp nr K (mat_of m) []) as [[[out outs] perm]|ex] eqn:EP; [|discriminate].
    cbn [bind fst] in HS. injection HS as <-.
    destruct (solve_perm_outputs sp Hsp Torch nr K (mat_of m) [] out outs perm EP) as (C1 & C2 & C3 & C4 & C5 & _).
    destruct (line_grads (fun d c => perm_bw nr K perm (fun _ => 1%R) c d)) as (G & SG & HG & HL).
    exists G. split; [|split; [exact SG|]].
    { unfold sdr_pit_loss_grad, sdr_grad. rewrite Hm. cbn [bind]. fold nr. rewrite EK, EP. cbn [bind].
      pose proof (grad_list o ref T K ys (fun d c => perm_bw nr K perm (fun _ => 1%R) c d) G Hys SG HG) as Q. rewrite EK in Q. exact Q. }
    intros hs Hhs eps Heps. destruct (HL hs Hhs) as (f & s & e & He & HD & HF & ES).
    rewrite (perm_bw_sum nr K perm (fun _ => 1%R) s C2 C4) in ES. rewrite ES. clear ES.
    assert (HB : forall k, k < Nat.min nr K -> fst (pair_at nr K perm k) < nr /\ snd (pair_at nr K perm k) < K).
    { intros k Hk. destruct C1 as (_ & C1 & _). apply (C1 (fst (pair_at nr K perm k)) (snd (pair_at nr K perm k))).
      rewrite <- surjective_pairing. unfold matching. apply in_map. apply in_seq. lia. }
    set (F := fun t => Rsum (Nat.min nr K) (fun k => f (fst (pair_at nr K perm k)) (snd (pair_at nr K perm k)) t)).
    set (S := Rsum (Nat.min nr K) (fun k => s (fst (pair_at nr K perm k)) (snd (pair_at nr K perm k)))).
    assert (DF : derivable_pt_lim F 0 S) by (apply derivable_sum; intros k Hk; destruct (HB k Hk); auto).
    replace (Rsum (Nat.min nr K) (fun k => 1 * s (fst (pair_at nr K perm k)) (snd (pair_at nr K perm k)))%R) with S
      by (apply Rsum_ext; intros; ring).
    assert (H0 : sumR (map to_R out) = F 0%R).
    { rewrite C5. rewrite map_map. change (sumR (map (fun x => to_R (at_pair (mat_of m) x)) (matching nr K perm)))
        with (total_cost (fun c d => to_R (mat_of m c d)) (matching nr K perm)).
      rewrite total_cost_matching. apply Rsum_ext. intros k Hk. destruct (HB k Hk).
      destruct (HF 0%R) as (m' & E' & H'); [rewrite Rabs_R0; auto|].
      rewrite rays_0 in E' by auto. rewrite Hm in E'. injection E' as <-. rewrite H' by auto. reflexivity. }
    destruct (DF eps Heps) as ([e2 He2] & HE2). simpl in HE2.
    exists (Rmin e e2). split; [apply Rmin_pos; auto|].
    intros t Ht. pose proof (Rmin_l e e2). pose proof (Rmin_r e e2).
    assert (At : Rabs t = t) by (apply Rabs_right; lra).
    destruct (HF t) as (mt & Emt & Hmt); [lra|].
    destruct (solve_perm_optimal sp Hsp Torch nr K (mat_of mt) []) as (out' & outs' & perm' & EP' & Hc' & Ho').
    { intros c d Hc Hd. rewrite Hmt by auto. reflexivity. }
    destruct (solve_perm_outputs sp Hsp Torch nr K (mat_of mt) [] out' outs' perm' EP') as (_ & D2 & _ & _ & D5 & _).
    exists out'. split; [|split].
    - unfold sdr_pit_loss, sdr. rewrite Emt. cbn [bind]. fold nr. rewrite arr_of_n, (proj1 (rays_shaped K T ys hs t Hys)), EP'. reflexivity.
    - intros x Hx. rewrite D5 in Hx. apply in_map_iff in Hx. destruct Hx as ([i j] & <- & Hij).
      destruct (proj1 (proj2 Hc') i j Hij). unfold at_pair. simpl. rewrite Hmt by auto. reflexivity.
    - rewrite H0. specialize (Ho' (matching nr K perm) C1).
      rewrite D5. rewrite map_map. change (sumR (map (fun x => to_R (at_pair (mat_of mt) x)) (matching nr K perm')))
        with (total_cost (fun c d => to_R (mat_of mt c d)) (matching nr K perm')).
      eapply Rle_trans; [exact Ho'|]. rewrite total_cost_matching.
      replace (Rsum _ _) with (F t) by (apply Rsum_ext; intros k Hk; destruct (HB k Hk); rewrite Hmt by auto; reflexivity).
      specialize (HE2 t ltac:(lra) ltac:(rewrite At; lra)). rewrite Rplus_0_l in HE2.
      apply Rlt_le, Rabs_both in HE2.
      assert (HQ : ((F t - F 0%R) / t <= S + eps)%R) by lra.
      apply (Rmult_le_compat_l t) in HQ; [|lra]. replace (t * ((F t - F 0) / t))%R with (F t - F 0)%R in HQ by (field; lra). lra.
  Qed.
End Pit.

(** ** Without the assumption that the derivative exists *)
Theorem sdr_grad_finite sp o cs ref T K ys v D vals perm : lsa_contract sp ->
  wf ref -> 0 < T -> shaped K T ys -> (filter_length o = 1 -> a_len ref = T) ->
  (forall c, c < n_chan ref -> exists x, has_chan ref c x) ->
  clamp_db o = Some D ->
  sdr Torch sp o cs ref (arr_of T ys) = Ok (vals, perm) ->
  exists G, sdr_grad sp o cs ref (arr_of T ys) v = Ok (map (map Fin) G) /\ shaped K T G /\
    forall d, d < K -> (norm_eps <= norm2 (pre (zero_mean o) (nth d ys [])))%R ->
      Rsum T (fun t => smp (nth d G []) t * smp (nth d ys []) t)%R = 0%R.
Proof.
  intros Hsp Hwr HT Hys HL1 Hxs HD HS.
  assert (EK : n_chan (arr_of T ys) = K) by (rewrite arr_of_n; apply Hys).
  unfold sdr in HS. rewrite EK in HS.
  destruct (pairwise_sdr_loss Torch o (arr_of T ys) ref) as [m|] eqn:Hm; [|discriminate]. cbn [bind] in HS.
  destruct (solve_permutation Torch sp (n_chan ref) K (mat_of m) []) as [[[out outs] perm']|ex] eqn:EP; [|discriminate].
  set (W := fun d c => perm_bw (n_chan ref) K perm' (fun k => if cs then v k else (- v k)%R) c d).
  assert (HG : forall d, d < K -> exists g, (est_grad_cg o ref T (map Fin (nth d ys [])) (W d) = Ok (map Fin g) /\ length g = T) /\
    ((norm_eps <= norm2 (pre (zero_mean o) (nth d ys [])))%R -> Rsum T (fun t => smp g t * smp (nth d ys []) t)%R = 0%R)).
  { intros d Hd. pose proof (shaped_nth K T ys d Hys Hd) as Ld.
    assert (Hok : forall u, pairwise_sdr_loss Torch o (one_chan T u) ref = Ok (loss1 o ref T u)).
    { intros u. destruct (loss_local Torch o (clamp_db o) (clamp_db o) ref (arr_of T ys) ref (one_chan T u) m eq_refl eq_refl (fun x H => H)) as (m' & E & _).
      - rewrite with_clamp_id. exact Hm.
      - rewrite with_clamp_id in E. unfold loss1. rewrite E. reflexivity. }
    assert (HDD : (use_cg_iter o = None \/ filter_length o = 1) \/ exists it, use_cg_iter o = Some it /\ filter_length o <> 1).
    { destruct (use_cg_iter o) as [it|]; auto. destruct (Nat.eq_dec (filter_length o) 1); eauto. }
    destruct HDD as [HDD|(it & Hit & N1)].
    - rewrite (est_grad_cg_direct o ref T _ (W d) HDD).
      destruct (clamped_gradient_finite Torch (with_cg o None) ref 0 (nth d ys []) (W d) (one_chan T) (loss1 o ref T) D) as (g & E & L & O & _); auto.
      + intros H1. rewrite Ld. auto.
      + rewrite Ld. apply one_chan_family; auto.
      + intros u _. rewrite loss_no_cg by auto. auto.
      + rewrite Ld in *. exists g. auto.
    - destruct (cg_clamped_finite o it ref Hwr Hit N1 Hxs (nth d ys []) (W d) D ltac:(lia) HD) as (g & E & L & O & _).
      rewrite Ld in *. exists g. auto. }
  apply (fin_choice []) in HG. destruct HG as (G & HG).
  assert (NG : forall d, d < K -> nth d (map G (seq 0 K)) [] = G d).
  { intros d Hd. rewrite (nth_indep _ [] (G 0)) by (rewrite map_length, seq_length; auto). rewrite map_nth, seq_nth by auto. reflexivity. }
  assert (SG : shaped K T (map G (seq 0 K))).
  { split; [rewrite map_length, seq_length; auto|]. apply Forall_forall. intros x Hx. apply in_map_iff in Hx.
    destruct Hx as (d & <- & Hd). apply in_seq in Hd. apply HG. lia. }
  exists (map G (seq 0 K)). split; [|split; auto].
  - unfold sdr_grad. rewrite Hm. cbn [bind]. rewrite EK, EP. cbn [bind].
    pose proof (grad_list o ref T K ys W (map G (seq 0 K)) Hys SG) as Q. rewrite EK in Q. apply Q.
    intros d Hd. rewrite NG by auto. apply HG; auto.
  - intros d Hd HN. rewrite NG by auto. apply HG; auto.
Qed.

(** an infinite loss of any pair, selected or not, makes the gradient of its estimate NaN *)
Theorem sdr_grad_nan sp o cs ref T K ys v m G c d : wf ref -> 0 < T -> shaped K T ys ->
  (filter_length o = 1 -> a_len ref = T) ->
  (forall c, c < n_chan ref -> exists x, has_chan ref c x) ->
  use_cg_iter o = None -> (0 <= loadv (load_diag o))%R -> clamp_db o = None ->
  pairwise_sdr_loss Torch o (arr_of T ys) ref = Ok m ->
  c < n_chan ref -> d < K -> mat_of m c d = PInf \/ mat_of m c d = NInf ->
  sdr_grad sp o cs ref (arr_of T ys) v = Ok G ->
  nth d G [] = repeat NaN T.
Proof.
  intros Hwr HT Hys HL1 Hxs Hcg Hld Hcl Hm Hc Hd HI HG.
  assert (EK : n_chan (arr_of T ys) = K) by (rewrite arr_of_n; apply Hys).
  pose proof (shaped_nth K T ys d Hys Hd) as Ld.
  unfold sdr_grad in HG. rewrite Hm in HG. cbn [bind] in HG. rewrite EK in HG.
  destruct (solve_permutation Torch sp (n_chan ref) K (mat_of m) []) as [[[out outs] perm]|ex] eqn:EP; [|discriminate]. cbn [bind] in HG.
  pose proof (mapM_nth _ (seq 0 K) G 0 [] d HG) as HN. rewrite seq_length in HN. specialize (HN Hd).
  rewrite seq_nth in HN by auto. rewrite arr_of_chan in HN. cbn [Nat.add a_len arr_of] in HN.
  rewrite est_grad_cg_direct in HN by auto.
  assert (Hloc : forall u, exists m', pairwise_sdr_loss Torch o (one_chan T u) ref = Ok m' /\
     forall c', c' < n_chan ref -> u = nth d ys [] -> mat_of m c' d = mat_of m' c' 0).
  { intros u. destruct (loss_local Torch o (clamp_db o) (clamp_db o) ref (arr_of T ys) ref (one_chan T u) m eq_refl eq_refl (fun x H => H)) as (m' & E & H').
    - rewrite with_clamp_id. exact Hm.
    - rewrite with_clamp_id in E. exists m'. split; auto. intros c' Hc' ->. apply H'; auto;
        solve [rewrite EK; auto | rewrite arr_of_chan; reflexivity | simpl; auto]. }
  assert (Hok : forall u, pairwise_sdr_loss Torch o (one_chan T u) ref = Ok (loss1 o ref T u)).
  { intros u. destruct (Hloc u) as (m' & E & _). unfold loss1. rewrite E. reflexivity. }
  assert (HI' : mat_of (loss1 o ref T (nth d ys [])) c 0 = PInf \/ mat_of (loss1 o ref T (nth d ys [])) c 0 = NInf).
  { destruct (Hloc (nth d ys [])) as (m' & E & H'). unfold loss1. rewrite E, <- H'; auto. }
  pose proof (infinite_loss_nan Torch (with_cg o None) ref c 0 (nth d ys [])
     (fun c0 => perm_bw (n_chan ref) K perm (fun k => if cs then v k else (- v k)%R) c0 d) (one_chan T) (loss1 o ref T) Hwr eq_refl Hld Hcl) as Q.
  rewrite Ld in Q. rewrite Q in HN; auto.
  - injection HN as HN. auto.
  - apply one_chan_family; auto.
  - intros u _. rewrite loss_no_cg by auto. auto.
Qed.

(** ** sdr_loss, pairwise=False *)
Definition one_ref (ref : arr) (c : nat) : arr := Arr (a_len ref) [nth c (a_chans ref) []].
Lemma slope_ext F F' y h l : (forall v, F v = F' v) -> slope F y h l -> slope F' y h l.
Proof. intros E (f & (e & He & H) & HD). exists f. split; auto. exists e. split; auto. intros t Ht. rewrite <- E. auto. Qed.
Lemma one_ref_in ref c x : c < n_chan ref -> In x (a_chans (one_ref ref c)) -> In x (a_chans ref).
Proof. intros Hc [<-|[]]. apply nth_In. exact Hc. Qed.
Lemma one_ref_wf ref c : wf ref -> c < n_chan ref -> wf (one_ref ref c).
Proof.
  intros [H1 H2] Hc. split; auto. simpl. constructor; [|constructor]. rewrite Forall_forall in H2. apply H2. apply nth_In. exact Hc.
Qed.
Lemma one_ref_chans ref c : (forall c, c < n_chan ref -> exists x, has_chan ref c x) -> c < n_chan ref ->
  forall c', c' < n_chan (one_ref ref c) -> exists x, has_chan (one_ref ref c) c' x.
Proof.
  intros H Hc c' Hc'. change (c' < 1) in Hc'. assert (c' = 0) as -> by lia.
  destruct (H c Hc) as (x & _ & E). exists x. split; [cbv; lia|exact E].
Qed.

Section Plain.
  Context (o : opts) (ref : arr) (T K : nat) (ys : list (list R)) (out : list xr).
  Context (Hwr : wf ref) (HT : 0 < T) (Hys : shaped K T ys) (HL1 : filter_length o = 1 -> a_len ref = T).
  Context (Hxs : forall c, c < n_chan ref -> exists x, has_chan ref c x) (Hnr : 0 < n_chan ref) (HK : 0 < K).
  Context (Hout : sdr_loss Torch o (arr_of T ys) ref = Ok out).
  Context (Hsm : forall i, i < length out -> exists m1,
    pairwise_sdr_loss Torch (with_clamp o None) (one_chan T (nth (bc_idx K i) ys [])) (one_ref ref (bc_idx (n_chan ref) i)) = Ok m1 /\
    smooth o (one_ref ref (bc_idx (n_chan ref) i)) m1 0 (nth (bc_idx K i) ys [])).
  Let nr := n_chan ref.
  Let ci := bc_idx nr.
  Let di := bc_idx K.

  Lemma plain_outputs : bc_chan Torch o nr K = Ok (length out) /\ exists m, pairwise_sdr_loss Torch o (arr_of T ys) ref = Ok m.
  Proof.
    assert (EK : n_chan (arr_of T ys) = K) by (rewrite arr_of_n; apply Hys).
    assert (HB : exists k, bc_chan Torch o nr K = Ok k).
    { unfold sdr_loss, sdr_coh_diag in Hout. rewrite !length_prep, EK in Hout. fold nr in Hout.
      destruct (bc_chan Torch o nr K) as [k|] eqn:E; [eauto|].
      destruct (filter_length o =? 1); [destruct (bc_len _ _ _)|]; discriminate. }
    destruct HB as (k & Hk). rewrite (sdr_loss_spec Torch o ref (arr_of T ys) k) in Hout; [|rewrite EK; exact Hk|rewrite EK; auto].
    destruct (pairwise_sdr_loss Torch o (arr_of T ys) ref) as [m|]; [|discriminate]. cbn [bind] in Hout. injection Hout as <-.
    rewrite length_tab. eauto.
  Qed.
  Lemma plain_bound i : i < length out -> ci i < nr /\ di i < K.
  Proof. intros Hi. apply (bc_chan_bound Torch o nr K (length out) i (proj1 plain_outputs) Hi). Qed.

  Lemma plain_at zs : length zs = K -> exists out', sdr_loss Torch o (arr_of T zs) ref = Ok out' /\ length out' = length out /\
    forall i, i < length out -> nth i out' NaN = mat_of (loss1 o (one_ref ref (ci i)) T (nth (di i) zs [])) 0 0.
  Proof.
    intros LZ. destruct plain_outputs as (Hk & m & Hm).
    assert (EK : n_chan (arr_of T zs) = K) by (rewrite arr_of_n; apply LZ).
    rewrite <- (with_clamp_id o) in Hm.
    destruct (loss_local Torch o (clamp_db o) (clamp_db o) ref (arr_of T ys) ref (arr_of T zs) m eq_refl eq_refl (fun x H => H) Hm) as (mz & Ez & _).
    rewrite with_clamp_id in Ez.
    rewrite (sdr_loss_spec Torch o ref (arr_of T zs) (length out)); [|rewrite EK; exact Hk|rewrite EK; auto].
    rewrite Ez. cbn [bind]. eexists. split; [reflexivity|]. rewrite length_tab. split; auto.
    intros i Hi. rewrite nth_tab by auto. rewrite EK. change (bc_idx (n_chan ref) i) with (ci i). change (bc_idx K i) with (di i).
    destruct (plain_bound i Hi) as [B1 B2]. rewrite <- (with_clamp_id o) in Ez.
    destruct (loss_local Torch o (clamp_db o) (clamp_db o) ref (arr_of T zs) (one_ref ref (ci i)) (one_chan T (nth (di i) zs [])) mz
      eq_refl eq_refl (fun x => one_ref_in ref (ci i) x B1) Ez) as (m' & E' & H').
    rewrite with_clamp_id in E'. unfold loss1. rewrite E'. apply H'; auto;
      solve [rewrite EK; auto | rewrite arr_of_chan; reflexivity | simpl; auto].
  Qed.

  Lemma plain_slopes hs : shaped K T hs -> exists (f : nat -> R -> R) (s : nat -> R) e, (0 < e)%R /\
    (forall i, i < length out -> slope (fun v => mat_of (loss1 o (one_ref ref (ci i)) T v) 0 0) (nth (di i) ys []) (nth (di i) hs []) (s i)) /\
    (forall i, i < length out -> derivable_pt_lim (f i) 0 (s i)) /\
    (forall t, (Rabs t < e)%R -> exists out', sdr_loss Torch o (arr_of T (rays ys hs t)) ref = Ok out' /\
       length out' = length out /\ forall i, i < length out -> nth i out' NaN = Fin (f i t)).
  Proof.
    intros Hhs.
    assert (HS : forall i, i < length out -> exists l,
       slope (fun v => mat_of (loss1 o (one_ref ref (ci i)) T v) 0 0) (nth (di i) ys []) (nth (di i) hs []) l).
    { intros i Hi. destruct (Hsm i Hi) as (m1 & E1 & S1). destruct (plain_bound i Hi) as [B1 B2].
      destruct (chan_gradient o (one_ref ref (ci i)) T (nth (di i) ys []) (fun _ => 0%R) m1) as (g & _ & _ & Hg); auto.
      - apply one_ref_wf; auto.
      - apply (shaped_nth K); auto.
      - apply one_ref_chans; auto.
      - destruct (Hg (nth (di i) hs []) (shaped_nth K T hs _ Hhs B2)) as (s & Hs & _). exists (s 0). apply Hs. cbv; lia. }
    apply (fin_choice 0%R) in HS. destruct HS as (s & Hs).
    assert (HF : forall i, i < length out -> exists f, derivable_pt_lim f 0 (s i) /\ exists e, (0 < e)%R /\
       forall t, (Rabs t < e)%R -> mat_of (loss1 o (one_ref ref (ci i)) T (ray (nth (di i) ys []) (nth (di i) hs []) t)) 0 0 = Fin (f t)).
    { intros i Hi. destruct (Hs i Hi) as (f & (e & He & Hf) & HD). exists f. split; auto. exists e. auto. }
    apply (fin_choice (fun _ => 0%R)) in HF. destruct HF as (f & HF).
    destruct (common_bound (length out) (fun i e => forall t, (Rabs t < e)%R ->
       mat_of (loss1 o (one_ref ref (ci i)) T (ray (nth (di i) ys []) (nth (di i) hs []) t)) 0 0 = Fin (f i t))) as (e & He & HE).
    { intros i e e' He HP t Ht. apply HP. lra. }
    { intros i Hi. apply HF; auto. }
    exists f, s, e. split; auto. split; auto. split; [intros; apply HF; auto|].
    intros t Ht. destruct (plain_at (rays ys hs t)) as (out' & E' & L' & H').
    { apply (rays_shaped K T ys hs t Hys). }
    exists out'. split; auto. split; auto. intros i Hi. rewrite H' by auto. destruct (plain_bound i Hi) as [B1 B2].
    rewrite nth_rays by (destruct Hys; lia). auto.
  Qed.

  (** all references together, when there is a single estimate *)
  Lemma plain_one_smooth : K = 1 -> exists m1,
    pairwise_sdr_loss Torch (with_clamp o None) (one_chan T (nth 0 ys [])) ref = Ok m1 /\ smooth o ref m1 0 (nth 0 ys []).
  Proof.
    intros K1. destruct plain_outputs as (Hk & m & Hm). rewrite <- (with_clamp_id o) in Hm.
    destruct (loss_local Torch o (clamp_db o) None ref (arr_of T ys) ref (one_chan T (nth 0 ys [])) m eq_refl eq_refl (fun x H => H) Hm) as (m1 & E1 & _).
    exists m1. split; auto.
    assert (Lo : length out = nr).
    { destruct (bc_chan_k _ _ _ _ _ Hk) as [[? ?]|[[? ?]|[? ?]]]; lia. }
    assert (HS : forall c, c < nr -> exists m', pairwise_sdr_loss Torch (with_clamp o None) (one_chan T (nth 0 ys [])) (one_ref ref c) = Ok m' /\
       smooth o (one_ref ref c) m' 0 (nth 0 ys [])).
    { intros c Hc. destruct (Hsm c ltac:(lia)) as (m' & E' & S').
      assert (Eb : bc_idx K c = 0) by (unfold bc_idx; rewrite K1; reflexivity). rewrite Eb in *.
      assert (Ec : bc_idx (n_chan ref) c = c).
      { unfold bc_idx. destruct (Nat.eqb_spec (n_chan ref) 1); auto. fold nr in e. lia. }
      rewrite Ec in *. eauto. }
    split; [|split].
    - destruct (HS 0 Hnr) as (_ & _ & S' & _). exact S'.
    - intros c Hc. destruct (HS c Hc) as (m' & E' & _ & S' & _). specialize (S' 0 ltac:(cbv; lia)).
      destruct (loss_local Torch o None None ref (one_chan T (nth 0 ys [])) (one_ref ref c) (one_chan T (nth 0 ys [])) m1
        eq_refl eq_refl (fun x => one_ref_in ref c x Hc) E1) as (m2 & E2 & H2).
      rewrite E2 in E'. injection E' as ->. rewrite (H2 eq_refl c 0 0 0); auto; simpl; auto.
    - intros it Hit HN c x Px.
      destruct (Nat.lt_ge_cases c nr) as [Hc|Hc].
      + destruct (HS c Hc) as (m' & _ & _ & _ & S'). apply (S' it Hit HN 0 x).
        rewrite <- Px. unfold pchan, prep_arr. simpl. symmetry.
        rewrite (nth_indep _ None (prep (zero_mean o) [])) by (rewrite map_length; exact Hc). apply map_nth.
      + unfold pchan in Px. rewrite nth_overflow in Px by (rewrite length_prep; exact Hc). discriminate.
  Qed.

  Theorem sdr_loss_gradient v :
    exists G, sdr_loss_grad o (arr_of T ys) ref v = Ok (map (map Fin) G) /\ shaped K T G /\
      forall hs, shaped K T hs -> exists (f : nat -> R -> R) (s : nat -> R) e, (0 < e)%R /\
        (forall t, (Rabs t < e)%R -> exists out', sdr_loss Torch o (arr_of T (rays ys hs t)) ref = Ok out' /\
           length out' = length out /\ forall i, i < length out -> nth i out' NaN = Fin (f i t)) /\
        (forall i, i < length out -> derivable_pt_lim (f i) 0 (s i)) /\
        Rsum K (fun d => Rsum T (fun t => smp (nth d G []) t * smp (nth d hs []) t))%R =
        Rsum (length out) (fun i => v i * s i)%R.
  Proof.
    assert (EK : n_chan (arr_of T ys) = K) by (rewrite arr_of_n; apply Hys).
    destruct plain_outputs as (Hk & m & Hm).
    destruct (Nat.eq_dec K 1) as [K1|K1].
    - destruct (plain_one_smooth K1) as (m1 & E1 & S1).
      destruct (chan_gradient o ref T (nth 0 ys []) v m1) as (g & Eg & Lg & Hg); auto.
      { apply (shaped_nth K); auto. }
      exists [g]. split; [|split].
      + unfold sdr_loss_grad. rewrite Hout. cbn [bind]. rewrite EK, K1, Nat.eqb_refl, arr_of_chan. cbn [a_len arr_of].
        rewrite Eg. reflexivity.
      + split; [simpl; auto|]. constructor; auto.
      + intros hs Hhs. destruct (plain_slopes hs Hhs) as (f & s & e & He & HS & HD & HF).
        exists f, s, e. split; auto. split; auto. split; auto.
        assert (Lo : length out = nr) by (destruct (bc_chan_k _ _ _ _ _ Hk) as [[? ?]|[[? ?]|[? ?]]]; lia).
        destruct (Hg (nth 0 hs []) (shaped_nth K T hs 0 Hhs HK)) as (s' & Hs' & Es').
        rewrite K1. cbn [gsum nth]. rewrite Rplus_0_l, Es', Lo. apply Rsum_ext. intros c Hc. f_equal.
        specialize (HS c ltac:(lia)).
        assert (Ed : di c = 0) by (unfold di, bc_idx; rewrite K1; reflexivity).
        assert (Ec : ci c = c) by (unfold ci, bc_idx; destruct (Nat.eqb_spec nr 1); lia).
        rewrite Ed, Ec in HS. refine (slope_unique _ _ _ _ _ (slope_ext _ _ _ _ _ _ (Hs' c Hc)) HS).
        intros u. unfold loss1.
        rewrite <- (with_clamp_id o) in Hm.
        destruct (loss_local Torch o (clamp_db o) (clamp_db o) ref (arr_of T ys) ref (one_chan T u) m eq_refl eq_refl (fun x H => H) Hm) as (m2 & E2 & _).
        destruct (loss_local Torch o (clamp_db o) (clamp_db o) ref (one_chan T u) (one_ref ref c) (one_chan T u) m2
          eq_refl eq_refl (fun x => one_ref_in ref c x Hc) E2) as (m3 & E3 & H3).
        rewrite with_clamp_id in E2, E3. rewrite E2, E3. apply (H3 eq_refl c 0 0 0); auto; simpl; auto.
    - assert (Lo : length out = K) by (destruct (bc_chan_k _ _ _ _ _ Hk) as [[? ?]|[[? ?]|[? ?]]]; lia).
      assert (Ed : forall d, di d = d) by (intros d; unfold di, bc_idx; destruct (Nat.eqb_spec K 1); lia).
      assert (HG : forall d, d < K -> exists g, (est_grad_cg o (one_ref ref (ci d)) T (map Fin (nth d ys [])) (fun _ => v d) = Ok (map Fin g) /\
         length g = T) /\ forall h, length h = T -> exists s,
           slope (fun u => mat_of (loss1 o (one_ref ref (ci d)) T u) 0 0) (nth d ys []) h s /\
           Rsum T (fun t => smp g t * smp h t)%R = (v d * s)%R).
      { intros d Hd. destruct (Hsm d ltac:(lia)) as (m1 & E1 & S1). destruct (plain_bound d ltac:(lia)) as [B1 _].
        fold di in E1, S1. rewrite Ed in E1, S1.
        destruct (chan_gradient o (one_ref ref (ci d)) T (nth d ys []) (fun _ => v d) m1) as (g & Eg & Lg & Hg); auto.
        - apply one_ref_wf; auto.
        - apply (shaped_nth K); auto.
        - apply one_ref_chans; auto.
        - exists g. split; auto. intros h Hh. destruct (Hg h Hh) as (s & Hs & Es). exists (s 0). split; [apply Hs; cbv; lia|].
          rewrite Es. change (n_chan (one_ref ref (ci d))) with 1. simpl. ring. }
      apply (fin_choice []) in HG. destruct HG as (G & HG).
      assert (NG : forall d, d < K -> nth d (map G (seq 0 K)) [] = G d).
      { intros d Hd. rewrite (nth_indep _ [] (G 0)) by (rewrite map_length, seq_length; auto). rewrite map_nth, seq_nth by auto. reflexivity. }
      exists (map G (seq 0 K)). split; [|split].
      + unfold sdr_loss_grad. rewrite Hout. cbn [bind]. rewrite EK. destruct (Nat.eqb_spec K 1); [contradiction|].
        rewrite (mapM_ok _ (fun d => map Fin (G d))).
        * rewrite map_map. reflexivity.
        * intros d Hd. apply in_seq in Hd. rewrite arr_of_chan, bc_pick_idx. cbn [a_len arr_of].
          apply (HG d). lia.
      + split; [rewrite map_length, seq_length; auto|]. apply Forall_forall. intros x Hx. apply in_map_iff in Hx.
        destruct Hx as (d & <- & Hd). apply in_seq in Hd. apply HG. lia.
      + intros hs Hhs. destruct (plain_slopes hs Hhs) as (f & s & e & He & HS & HD & HF).
        exists f, s, e. split; auto. split; auto. split; auto. rewrite Lo. apply Rsum_ext. intros d Hd. rewrite NG by auto.
        destruct (HG d Hd) as [_ Hg]. destruct (Hg (nth d hs []) (shaped_nth K T hs d Hhs Hd)) as (s' & Hs' & ->). f_equal.
        specialize (HS d ltac:(lia)). rewrite Ed in HS. exact (slope_unique _ _ _ _ _ Hs' HS).
  Qed.
End Plain.
