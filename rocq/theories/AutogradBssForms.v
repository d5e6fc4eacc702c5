(** * The backward pass of bss_eval_sources: the quadratic forms behind the coherences *)
From Coq Require Import Reals Lra FunctionalExtensionality.
From Verif Require Import Prelude ExtReal Sums Fft FftProofs Helpers Linalg LinalgProofs Cgd Metrics SpecSig StatsProofs PrepProofs
  LeastSq DbProofs MetricsProofs ProjTheorems MetricTheorems SarProofs Outputs Autograd AutogradFft AutogradEntry AutogradTheorems AutogradPit AutogradBss.
Local Open Scope nat_scope.

Definition qform (K M : nat) (a : nat -> nat -> R) (lam : R) (u v : nat -> R) : R :=
  qval K M a u (sol K (gram M a lam) (fun i => dot M (a i) v)).

Lemma solve_gram K M a lam A r : nonsingular K (gram M a lam) ->
  (forall i j, i < K -> j < K -> A i j = gram M a lam i j) ->
  exists s, solve_vec K A r = Ok s /\ forall i, i < K -> s i = sol K (gram M a lam) r i.
Proof.
  intros HN HA. unfold solve_vec.
  assert (HNA : nonsingular K A) by (apply (nonsingular_ext K (gram M a lam)); auto; intros; symmetry; auto).
  destruct (Rsolve_some K A r HNA) as (s & Es). rewrite Es. exists s. split; auto.
  intros i Hi. apply (Rsolve_uniq K (gram M a lam) r (sol K (gram M a lam) r) s (proj1 (sol_ok K _ _ HN))); auto.
  intros k Hk. rewrite <- (Rsolve_ok K A r s Es k Hk). unfold mulmv. apply Rsum_ext. intros j Hj. rewrite HA; auto.
Qed.
Lemma sol_scaled K M a lam u g r : nonsingular K (gram M a lam) -> (forall i, i < K -> r i = (g * dot M (a i) u)%R) ->
  forall i, i < K -> sol K (gram M a lam) r i = (g * sol K (gram M a lam) (fun i => dot M (a i) u) i)%R.
Proof.
  intros HN Hr i Hi. symmetry.
  apply (Rsolve_uniq K (gram M a lam) r _ (fun i => g * sol K (gram M a lam) (fun i => dot M (a i) u) i)%R (proj1 (sol_ok K _ _ HN))); auto.
  intros k Hk. rewrite Hr by auto. rewrite <- (proj2 (sol_ok K _ (fun i => dot M (a i) u) HN) k Hk).
  unfold mulmv. change (gsum 0%R Rplus) with Rsum. rewrite <- Rsum_scal_l. apply Rsum_ext. intros; ring.
Qed.
Lemma quad_gram K M a lam A r u : nonsingular K (gram M a lam) ->
  (forall i j, i < K -> j < K -> A i j = gram M a lam i j) ->
  (forall i, i < K -> r i = dot M (a i) u) ->
  exists s, solve_vec K A r = Ok s /\ Rsum K (fun l => r l * s l)%R = qform K M a lam u u /\
    forall g, exists t, quad_bw K A r s g = Ok t /\
      forall h, Rsum K (fun l => t l * dot M (a l) h)%R = (2 * g * qform K M a lam u h)%R.
Proof.
  intros HN HA Hr. destruct (solve_gram K M a lam A r HN HA) as (s & Es & Hs). exists s. split; auto.
  assert (Hs' : forall i, i < K -> s i = sol K (gram M a lam) (fun i => dot M (a i) u) i).
  { intros i Hi. rewrite Hs, (sol_scaled K M a lam u 1%R r HN) by (auto; intros; rewrite Hr by auto; ring). ring. }
  split.
  - apply Rsum_ext. intros l Hl. rewrite Hr, Hs' by auto. reflexivity.
  - intros g. unfold quad_bw.
    destruct (solve_gram K M a lam (fun i j => A j i) (fun l => g * r l)%R HN) as (t & Et & Ht).
    { intros i j Hi Hj. rewrite HA by auto. unfold gram. rewrite dot_comm, Nat.eqb_sym. reflexivity. }
    rewrite Et. cbn [bind]. eexists. split; [reflexivity|]. intros h.
    unfold qform. pose proof (proj1 (bilin_gram K M a lam HN) u h) as S. cbv beta in S. rewrite S.
    unfold qval. rewrite <- Rsum_scal_l. apply Rsum_ext. intros l Hl.
    rewrite Hs', Ht by auto. rewrite (sol_scaled K M a lam u g (fun l => g * r l)%R HN) by (auto; intros i Hi; cbv beta; rewrite (Hr i Hi); reflexivity). ring.
Qed.

(** ** The cotangents depend on the compared references only *)
Lemma forallb_ext_in {A} (f g : A -> bool) l : (forall x, In x l -> f x = g x) -> forallb f l = forallb g l.
Proof. induction l as [|x l IH]; intros H; auto. simpl. rewrite (H x (or_introl eq_refl)), IH; auto. intros y Hy. apply H. right. auto. Qed.
Lemma bss_cots_ext cd k cmp s s' a ws wi wa : (forall c, c < k -> cmp c = true -> s c = s' c) ->
  match bss_cots cd k cmp s a ws wi wa with
  | None => bss_cots cd k cmp s' a ws wi wa = None
  | Some (gs, ga) => exists gs', bss_cots cd k cmp s' a ws wi wa = Some (gs', ga) /\ forall c, c < k -> gs' c = gs c
  end.
Proof.
  intros H. unfold bss_cots.
  rewrite (forallb_ext_in _ (fun c => is_fin (fst (base_bw cd (s' c) a (cot ws c) (cot wi c) (cot wa c))) && is_fin (snd (base_bw cd (s' c) a (cot ws c) (cot wi c) (cot wa c))))
    (filter cmp (seq 0 k))).
  2:{ intros c Hc. apply filter_In in Hc. destruct Hc as [Hc Hm]. apply in_seq in Hc. rewrite (H c) by (auto; lia). reflexivity. }
  destruct (forallb _ _); auto. eexists. split.
  - f_equal. apply (f_equal2 pair); [reflexivity|]. symmetry. apply Rsum_ext. intros c Hc. destruct (cmp c) eqn:E; auto. rewrite (H c) by auto. reflexivity.
  - intros c Hc. cbv beta. destruct (cmp c) eqn:E; auto. rewrite (H c) by auto. reflexivity.
Qed.
Lemma bss_cots_off cd k cmp s a ws wi wa gs ga c : bss_cots cd k cmp s a ws wi wa = Some (gs, ga) -> cmp c = false -> gs c = 0%R.
Proof.
  unfold bss_cots. destruct (forallb _ _); [|discriminate]. intros H E. injection H as <- _. rewrite E. reflexivity.
Qed.

(** ** The forms *)
Definition bss_bw (o : opts) (ref : arr) (len : nat) (u : list R) (cmp : nat -> bool) (ws wi wa : option (nat -> R)) : res chan :=
  let x := pc (zero_mean o) ref in
  if Nat.eqb (filter_length o) 1 then
    do n <- bc_len Torch (a_len ref) len;
    bss1_bw (clamp_db o) n (a_len ref) (load_diag o) (n_chan ref) x u cmp ws wi wa
  else bssL_bw (clamp_db o) (n_fft (a_len ref) len) (filter_length o) len (load_diag o) (n_chan ref) x u cmp ws wi wa.

Definition nrm (o : opts) (v : list R) : nat -> R := smp (unit_of (pre (zero_mean o) v)).
Definition bss_forms (o : opts) (ref : arr) (len : nat) (Qs : nat -> (nat -> R) -> (nat -> R) -> R) (Qa : (nat -> R) -> (nat -> R) -> R) : Prop :=
  (forall c, c < n_chan ref -> bilin (Qs c)) /\ bilin Qa /\
  (forall est, wf est -> a_len est = len -> exists m sar, sq_cos Torch o ref est = Ok (m, sar) /\
     forall d v, has_chan est d v -> nth d sar NaN = Fin (Qa (nrm o v) (nrm o v)) /\
       forall c, c < n_chan ref -> mat_of m c d = Fin (Qs c (nrm o v) (nrm o v))) /\
  (forall u cmp ws wi wa, length u = len ->
     match bss_cots (clamp_db o) (n_chan ref) cmp (fun c => Qs c (smp u) (smp u)) (Qa (smp u) (smp u)) ws wi wa with
     | None => bss_bw o ref len u cmp ws wi wa = Ok None
     | Some (gs, ga) => exists G, bss_bw o ref len u cmp ws wi wa = Ok (Some G) /\ length G = len /\
         forall h, length h = len -> Rsum len (fun t => nth t G 0 * smp h t)%R =
           (Rsum (n_chan ref) (fun c => 2 * gs c * Qs c (smp u) (smp h)) + 2 * ga * Qa (smp u) (smp h))%R
     end).

Section Forms.
  Context (o : opts) (ref : arr) (len : nat) (est0 : arr) (c0 : list (list xr) * list xr).
  Context (Hwr : wf ref) (Hlen : 0 < len) (Hcg : use_cg_iter o = None) (HL1 : filter_length o = 1 -> a_len ref = len).
  Context (HLp : 0 < filter_length o) (Hxs : forall c, c < n_chan ref -> exists x, has_chan ref c x).
  Context (Hl0 : a_len est0 = len) (Hok : sq_cos Torch o ref est0 = Ok c0).
  Let k := n_chan ref.
  Let xs := pc (zero_mean o) ref.

  Lemma bf_clean : clean (zero_mean o) ref.
  Proof.
    intros c Hc. destruct (Hxs c Hc) as (x & Hx). destruct (has_chan_pchan (zero_mean o) ref c x Hwr Hx) as [E _]. congruence.
  Qed.
  Lemma bf_x c : c < k -> pchan (zero_mean o) ref c = Some (xs c) /\ length (xs c) = a_len ref.
  Proof.
    intros Hc. pose proof (clean_pc _ _ _ bf_clean Hc) as E. split; auto.
    apply (pchan_length (zero_mean o) ref c); auto.
  Qed.
  Lemma bf_tainted : existsb tainted (prep_arr (zero_mean o) ref) = false.
  Proof. apply clean_tainted. apply bf_clean. Qed.
  Lemma bf_rchan c : c < k -> rchan (prep_arr (zero_mean o) ref) c = xs c.
  Proof. reflexivity. Qed.

  Lemma len1_forms : filter_length o = 1 -> exists Qs Qa, bss_forms o ref len Qs Qa.
  Proof.
    intros E1. specialize (HL1 E1).
    assert (HN : nonsingular k (gram len (fun c => smp (xs c)) (loadv (load_diag o)))).
    { unfold sq_cos in Hok. rewrite E1, Hl0, HL1 in Hok. cbn [Nat.eqb] in Hok. unfold bc_len in Hok. rewrite Nat.eqb_refl in Hok. cbn [bind] in Hok.
      destruct (len1_sar _ _ _ _ _) as [sar|] eqn:E; [|discriminate].
      apply len1_sar_inv in E; auto; [|intros c Hc; rewrite length_prep in Hc; rewrite bf_rchan by auto; rewrite <- HL1; apply bf_x; auto|apply bf_tainted].
      destruct E as (_ & E & _). rewrite length_prep in E. exact E. }
    exists (fun c u v => dot len (smp (xs c)) u * dot len (smp (xs c)) v)%R, (qform k len (fun c => smp (xs c)) (loadv (load_diag o))).
    pose proof (bilin_gram k len _ _ HN) as HB.
    split; [intros; apply bilin_dot|]. split; [exact HB|]. split.
    - intros est We Hle.
      assert (S : exists m sar, sq_cos Torch o ref est = Ok (m, sar)).
      { unfold sq_cos. rewrite E1, Hle, HL1. cbn [Nat.eqb]. unfold bc_len. rewrite Nat.eqb_refl. cbn [bind].
        destruct (len1_sar_ok len (load_diag o) (prep_arr (zero_mean o) ref) (prep_arr (zero_mean o) est)) as (sar & ->).
        - intros c Hc. rewrite length_prep in Hc. rewrite bf_rchan by auto. rewrite <- HL1. apply bf_x; auto.
        - rewrite length_prep. exact HN.
        - cbn [bind]. eauto. }
      destruct S as (m & sar & E). exists m, sar. split; auto. intros d v Hv.
      destruct (has_chan_pchan (zero_mean o) est d v We Hv) as [Pv Lv]. split.
      + destruct (sar_entry1 Torch o ref est m sar d _ Hwr We E E1 ltac:(congruence) bf_clean (proj1 Hv) Pv) as (q & (h & Hh & Hq) & Es).
        rewrite Es, Hq. f_equal. rewrite HL1 in Hh |- *. apply Rsum_ext. intros c Hc. f_equal.
        apply (Rsolve_uniq k (gram len (fun c => smp (xs c)) (loadv (load_diag o))) (fun i => dot len (smp (xs i)) (nrm o v)) _ h
          (proj1 (sol_ok k _ _ HN))); auto.
      + intros c Hc. pose proof (sq_cos_sdr' _ _ _ _ _ _ HLp E) as Em. destruct (bf_x c Hc) as [Px _].
        rewrite (sdr_entry1 Torch o ref est m c d (xs c) _ Hwr We Em E1 ltac:(congruence) Px Pv). f_equal. rewrite HL1. unfold nrm. ring.
    - intros u cmp ws wi wa Hu. unfold bss_bw. rewrite E1. cbn [Nat.eqb]. unfold bc_len. rewrite HL1, Nat.eqb_refl. cbn [bind].
      fold k xs. unfold bss1_bw. cbv zeta.
      assert (Lx : forall c, c < k -> length (xs c) = len) by (intros c Hc; rewrite <- HL1; apply bf_x; auto).
      destruct (quad_gram k len (fun c => smp (xs c)) (loadv (load_diag o))
        (fun c d => (ip len (xs c) (xs d) + match load_diag o with Some l => if Nat.eqb c d then l else 0 | None => 0 end)%R)
        (fun c => ip len (xs c) u) (smp u) HN) as (s & Es & Eq & Ht).
      { intros i j Hi Hj. unfold gram. rewrite ip_dot by auto. f_equal. destruct (load_diag o); simpl; destruct (i =? j); auto. }
      { intros i Hi. apply ip_dot; auto. }
      rewrite Es. cbn [bind]. rewrite Eq.
      pose proof (bss_cots_ext (clamp_db o) k cmp (fun c => dot len (smp (xs c)) (smp u) * dot len (smp (xs c)) (smp u))%R
        (fun c => ip len (xs c) u ^ 2)%R (qform k len (fun c => smp (xs c)) (loadv (load_diag o)) (smp u) (smp u)) ws wi wa) as EX.
      specialize (EX ltac:(intros c Hc _; cbv beta; rewrite ip_dot by auto; ring)).
      destruct (bss_cots (clamp_db o) k cmp (fun c => dot len (smp (xs c)) (smp u) * dot len (smp (xs c)) (smp u))%R _ ws wi wa) as [[gs ga]|].
      2:{ rewrite EX. reflexivity. }
      destruct EX as (gs' & -> & Hgs). destruct (Ht ga) as (ta & -> & Hta). cbn [bind].
      eexists. split; [reflexivity|]. rewrite Hu.
      set (gy := fun t => Rsum k (fun c => (gs' c * (2 * ip len (xs c) u) + ta c) * bc_get (xs c) t)%R).
      assert (EG : forall t, t < len -> nth t (if Nat.eqb len 1 then [Rsum len gy] else tab len gy) 0%R = Rsum k (fun c => (gs' c * (2 * ip len (xs c) u) + ta c) * smp (xs c) t)%R).
      { intros t Ht'. assert (EB : forall c, c < k -> bc_get (xs c) t = smp (xs c) t).
        { intros c Hc. unfold bc_get, smp. rewrite Lx by auto. destruct (Nat.eqb_spec len 1); auto. replace t with 0 by lia. reflexivity. }
        destruct (Nat.eqb_spec len 1) as [El|Nl].
        - assert (t = 0) as -> by lia. cbn [nth]. replace (Rsum len gy) with (gy 0) by (rewrite El; cbn [gsum]; ring). unfold gy. apply Rsum_ext. intros c Hc. rewrite EB by auto. reflexivity.
        - rewrite nth_tab by auto. unfold gy. apply Rsum_ext. intros c Hc. rewrite EB by auto. reflexivity. }
      split.
      { destruct (Nat.eqb_spec len 1); [subst; auto|apply length_tab]. }
      intros h Hh.
      rewrite (Rsum_ext len _ (fun t => Rsum k (fun c => (gs' c * (2 * ip len (xs c) u) + ta c) * (smp (xs c) t * smp h t)))%R).
      2:{ intros t Ht'. rewrite (EG t Ht'). rewrite <- Rsum_scal_r. apply Rsum_ext. intros; ring. }
      rewrite Rsum_swap. rewrite <- (Hta (smp h)), <- Rsum_plus. apply Rsum_ext. intros c Hc.
      rewrite Rsum_scal_l. rewrite ip_dot by auto. rewrite Hgs by auto. unfold dot. ring.
  Qed.

  Section Longer.
  Context (N1 : filter_length o <> 1).
  Let nf := n_fft (a_len ref) len.
  Let L := filter_length o.
  Let lam := loadv (load_diag o).

  Lemma bf_bound : L <= nf.
  Proof. destruct (sq_cos_bound Torch o ref est0 _ HLp Hok) as [H|H]; [contradiction|]. rewrite Hl0 in H. exact H. Qed.
  Lemma bf_nf : 0 < nf /\ len <= nf.
  Proof. pose proof (n_fft_ge (a_len ref) len ltac:(apply Hwr)). pose proof (proj1 Hwr). unfold nf. lia. Qed.
  Lemma bf_sdr_ns c : c < k -> nonsingular L (gram nf (cdelayed nf (xs c)) lam).
  Proof.
    intros Hc. pose proof bf_bound as HB.
    assert (Hok' : sq_cos Torch o ref est0 = Ok (fst c0, snd c0)) by (rewrite Hok; destruct c0; reflexivity).
    pose proof (sq_cos_sdr' _ _ _ _ _ _ HLp Hok') as Hm0.
    unfold sdr_coh in Hm0. fold L in Hm0. destruct (Nat.eqb_spec L 1); [contradiction|].
    cbv zeta in Hm0. rewrite Hcg, Hl0 in Hm0. fold nf in Hm0.
    assert (Hc' : c < length (prep_arr (zero_mean o) ref)) by (rewrite length_prep; exact Hc).
    pose proof (mapM_nth _ _ _ (None : chan) [] c Hm0 Hc') as E. destruct (bf_x c Hc) as [Px _]. unfold pchan in Px. rewrite Px in E.
    apply coh_row_inv in E. destruct E as (_ & E & _). apply row_nonsingular in E. rewrite Nat.min_l in E by exact HB. exact E.
  Qed.
  Lemma bf_sar_ns : nonsingular (L * k) (gram nf (all_cdelays nf k xs) lam).
  Proof.
    pose proof bf_bound as HB. pose proof bf_tainted as HT. pose proof Hok as H.
    unfold sq_cos in H. fold L in H. destruct (Nat.eqb_spec L 1); [contradiction|].
    cbv zeta in H. rewrite Hcg, Hl0 in H. fold nf in H.
    destruct (check_sizes _ _ _ _); [|discriminate]. cbn [bind] in H.
    destruct (mapM _ _); [|discriminate]. cbn [bind] in H.
    destruct (sar_row _ _ _ _ _ _ _ _) as [s|] eqn:E; [|discriminate].
    apply sar_row_inv in E; [|unfold L in *; lia|exact HB|exact HT].
    destruct E as (_ & E & _). rewrite length_prep in E. exact E.
  Qed.
  Lemma bf_fwd est : wf est -> a_len est = len -> exists m sar, sq_cos Torch o ref est = Ok (m, sar) /\
     forall d v, has_chan est d v ->
       nth d sar NaN = Fin (qform (L * k) nf (all_cdelays nf k xs) lam (nrm o v) (nrm o v)) /\
       forall c, c < k -> mat_of m c d = Fin (qform L nf (cdelayed nf (xs c)) lam (nrm o v) (nrm o v)).
  Proof.
    intros We Hle. pose proof bf_bound as HB. pose proof bf_nf as [Hnf _].
    assert (S : exists m sar, sq_cos Torch o ref est = Ok (m, sar)).
    { unfold sq_cos. fold L. destruct (Nat.eqb_spec L 1); [contradiction|].
      cbv zeta. rewrite Hcg, Hle. fold nf. rewrite (proj2 (check_sizes_ok Torch None nf L HLp Hnf) HB). cbn [bind].
      destruct (mapM_all_ok (fun x : chan => match x with
        | Some v => coh_row Torch None (acf_sdr nf L (load_diag o) v) (stats_xcorr nf L v) (prep_arr (zero_mean o) est)
        | None => Ok (map (fun _ => NaN) (prep_arr (zero_mean o) est)) end) (prep_arr (zero_mean o) ref)) as (m & ->).
      { intros x Hx. destruct (In_nth _ _ (None : chan) Hx) as (c & Hc & Ec). rewrite length_prep in Hc.
        destruct (bf_x c Hc) as [Px _]. unfold pchan in Px. rewrite Px in Ec. subst x.
        apply coh_row_ok. rewrite acf_sdr_eq by auto. apply row_nonsingular. rewrite Nat.min_l by auto. apply bf_sdr_ns; auto. }
      cbn [bind].
      destruct (sar_row_ok Torch nf L (load_diag o) true (prep_arr (zero_mean o) ref) (prep_arr (zero_mean o) est)) as (sar & ->).
      - unfold L in *; lia.
      - exact HB.
      - apply bf_tainted.
      - rewrite length_prep. exact bf_sar_ns.
      - cbn [bind]. eauto. }
    destruct S as (m & sar & E). exists m, sar. split; auto. intros d v Hv.
    destruct (has_chan_pchan (zero_mean o) est d v We Hv) as [Pv Lv]. split.
    - destruct (sar_entry Torch o ref est m sar d _ E Hcg ltac:(unfold L in *; lia) bf_clean (proj1 Hv) Pv) as (_ & q & (h & Hh & Hq) & Es).
      rewrite Hle in Hh, Hq. rewrite Es, Hq. f_equal. apply Rsum_ext. intros p Hp. f_equal.
      apply (Rsolve_uniq (L * k) (gram nf (all_cdelays nf k xs) lam) (fun i => dot nf (all_cdelays nf k xs i) (nrm o v)) _ h
        (proj1 (sol_ok _ _ _ bf_sar_ns))); auto.
    - intros c Hc. pose proof (sq_cos_sdr' _ _ _ _ _ _ HLp E) as Em. destruct (bf_x c Hc) as [Px _].
      destruct (sdr_entry Torch o ref est m c d _ _ Em Hcg N1 Hc (proj1 Hv) Px Pv) as (q & (h & Hh & Hq) & Es).
      rewrite Hle in Hh, Hq. rewrite Nat.min_l in Hh, Hq by exact HB. rewrite Es, Hq. f_equal. apply Rsum_ext. intros p Hp. f_equal.
      apply (Rsolve_uniq L (gram nf (cdelayed nf (xs c)) lam) (fun i => dot nf (cdelayed nf (xs c) i) (nrm o v)) _ h
        (proj1 (sol_ok _ _ _ (bf_sdr_ns c Hc)))); auto.
  Qed.

  Lemma lenL_forms : exists Qs Qa, bss_forms o ref len Qs Qa.
  Proof.
    pose proof bf_bound as HB. pose proof bf_nf as [Hnf Hlnf].
    exists (fun c => qform L nf (cdelayed nf (xs c)) lam), (qform (L * k) nf (all_cdelays nf k xs) lam).
    split; [intros c Hc; apply (bilin_gram L nf _ _ (bf_sdr_ns c Hc))|]. split; [apply (bilin_gram _ _ _ _ bf_sar_ns)|].
    split; [exact bf_fwd|].
    intros u cmp ws wi wa Hu. unfold bss_bw. fold L k xs nf. destruct (Nat.eqb_spec L 1); [contradiction|].
    unfold bssL_bw. cbv zeta. rewrite (proj2 (check_sizes_ok Torch None nf L HLp Hnf) HB). cbn [bind].
    destruct (sar_system_cgram Torch nf L (load_diag o) k xs ltac:(unfold L in *; lia) HB) as (M & EM & HM).
    assert (Etop : length (block_acf nf L (load_diag o) xs 0 0) = 2 * L) by (rewrite length_block_acf by exact HLp; lia).
    unfold block_acf in EM, Etop. rewrite Etop, EM. cbn [bind].
    replace (2 * L / 2) with L by (rewrite Nat.mul_comm, Nat.div_mul by lia; reflexivity).
    assert (Hxc : forall c v i, i < L -> nth i (stats_xcorr nf L (xs c) v) 0%R = dot nf (cdelayed nf (xs c) i) (smp v))
      by (intros c v i Hi; apply sdr_crhs; lia).
    assert (HS : forall c, c < k -> exists s,
       solve_vec L (ent (toeplitz Torch (acf_sdr nf L (load_diag o) (xs c)))) (fun l => nth l (stats_xcorr nf L (xs c) u) 0%R) = Ok s /\
       Rsum L (fun l => nth l (stats_xcorr nf L (xs c) u) 0 * s l)%R = qform L nf (cdelayed nf (xs c)) lam (smp u) (smp u) /\
       forall g, exists t, quad_bw L (ent (toeplitz Torch (acf_sdr nf L (load_diag o) (xs c)))) (fun l => nth l (stats_xcorr nf L (xs c) u) 0%R) s g = Ok t /\
         forall h, Rsum L (fun l => t l * dot nf (cdelayed nf (xs c) l) h)%R = (2 * g * qform L nf (cdelayed nf (xs c)) lam (smp u) h)%R).
    { intros c Hc. apply quad_gram; auto; [apply bf_sdr_ns; auto|]. intros i j Hi Hj. rewrite acf_sdr_eq by auto. apply toep_gram; auto. }
    apply (fin_choice (fun _ => 0%R)) in HS. destruct HS as (S & HS).
    rewrite (mapM_ok _ (fun c => if cmp c then S c else fun _ => 0%R)).
    2:{ intros c Hc. apply in_seq in Hc. destruct (HS c ltac:(lia)) as [E _]. destruct (cmp c); auto. }
    cbn [bind].
    assert (HSn : forall c, c < k -> nth c (map (fun c => if cmp c then S c else fun _ => 0%R) (seq 0 k)) (fun _ => 0%R) = if cmp c then S c else fun _ => 0%R).
    { intros c Hc. rewrite (nth_indep _ (fun _ => 0%R) ((fun c => if cmp c then S c else fun _ => 0%R) 0)) by (rewrite map_length, seq_length; auto).
      rewrite (map_nth (fun c => if cmp c then S c else fun _ => 0%R)), seq_nth by auto. reflexivity. }
    set (sc := fun c => nth c (map (fun c => if cmp c then S c else fun _ => 0%R) (seq 0 k)) (fun _ => 0%R)) in *.
    destruct (quad_gram (L * k) nf (all_cdelays nf k xs) lam M
      (fun l => nth l (flatten k (length (stats_xcorr nf L (xs 0) u)) (fun c => stats_xcorr nf L (xs c) u)) 0%R) (smp u) bf_sar_ns) as (s & Es & Eq & Ht).
    { intros i j Hi Hj. rewrite HM by auto. reflexivity. }
    { intros i Hi. rewrite length_stats_xcorr, Nat.min_l by lia. apply sar_crhs; auto. }
    rewrite Es. cbn [bind]. rewrite Eq.
    pose proof (bss_cots_ext (clamp_db o) k cmp (fun c => qform L nf (cdelayed nf (xs c)) lam (smp u) (smp u))
      (fun c => dot_nth L (stats_xcorr nf L (xs c) u) (sc c)) (qform (L * k) nf (all_cdelays nf k xs) lam (smp u) (smp u)) ws wi wa) as EX.
    specialize (EX ltac:(intros c Hc Hm; cbv beta; unfold sc; rewrite HSn, Hm by auto; symmetry; apply (HS c Hc))).
    destruct (bss_cots (clamp_db o) k cmp (fun c => qform L nf (cdelayed nf (xs c)) lam (smp u) (smp u)) _ ws wi wa) as [[gs ga]|] eqn:EC.
    2:{ cbv beta delta [sc] in EX. rewrite EX. reflexivity. }
    destruct EX as (gs' & EX & Hgs). cbv beta delta [sc] in EX. rewrite EX. destruct (Ht ga) as (ta & Eta & Hta).
    assert (HT : forall c, c < k -> exists t, (if cmp c then quad_bw L (ent (toeplitz Torch (acf_sdr nf L (load_diag o) (xs c))))
        (fun l => nth l (stats_xcorr nf L (xs c) u) 0%R) (sc c) (gs' c) else Ok (fun _ => 0%R)) = Ok t /\
        forall h, Rsum L (fun l => t l * dot nf (cdelayed nf (xs c) l) h)%R = (2 * gs c * qform L nf (cdelayed nf (xs c)) lam (smp u) h)%R).
    { intros c Hc. unfold sc. rewrite HSn by auto. destruct (cmp c) eqn:Em.
      - destruct (proj2 (proj2 (HS c Hc)) (gs' c)) as (t & E & H). exists t. split; auto. rewrite <- Hgs by auto. exact H.
      - exists (fun _ => 0%R). split; auto. intros h. rewrite (bss_cots_off _ _ _ _ _ _ _ _ _ _ c EC Em).
        rewrite Rsum_zero by (intros; ring). ring. }
    apply (fin_choice (fun _ => 0%R)) in HT. destruct HT as (t & HT).
    rewrite (mapM_ok _ t) by (intros c Hc; apply in_seq in Hc; apply HT; lia). cbn [bind]. rewrite Eta. cbn [bind].
    eexists. split; [reflexivity|]. split; [apply length_tab|]. intros h Hh.
    assert (Htn : forall c, c < k -> nth c (map t (seq 0 k)) (fun _ => 0%R) = t c).
    { intros c Hc. rewrite (nth_indep _ (fun _ => 0%R) (t 0)) by (rewrite map_length, seq_length; auto). rewrite map_nth, seq_nth by auto. reflexivity. }
    pose proof (Hta (smp h)) as Eta'. rewrite Rsum_prod, Rsum_swap in Eta'. rewrite <- Eta', <- Rsum_plus.
    rewrite (Rsum_ext len _ (fun i => Rsum k (fun c => nth i (xcorr_bw nf len (xs c) (tab L (fun l => nth c (map t (seq 0 k)) (fun _ => 0%R) l + ta (l * k + c)%nat)%R)) 0 * smp h i))%R).
    2:{ intros i Hi. rewrite nth_tab by auto. rewrite <- Rsum_scal_r. reflexivity. }
    rewrite Rsum_swap. apply Rsum_ext. intros c Hc. rewrite <- Hh. unfold smp at 1.
    rewrite (xcorr_adjoint nf L) by (rewrite ?length_tab; lia). rewrite length_tab.
    rewrite <- (proj2 (HT c Hc) (smp h)), <- Rsum_plus. apply Rsum_ext. intros l Hl.
    rewrite nth_tab, Hxc, Htn by auto. unfold all_cdelays. rewrite lag_div, lag_mod by auto. ring.
  Qed.
  End Longer.

  Theorem bss_has_forms : exists Qs Qa, bss_forms o ref len Qs Qa.
  Proof. destruct (Nat.eq_dec (filter_length o) 1); [apply len1_forms|apply lenL_forms]; auto. Qed.
End Forms.
