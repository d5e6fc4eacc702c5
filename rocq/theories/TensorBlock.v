(** * The block operators of cgd.py on arrays with batch axes *)
From Coq Require Import Reals Lra.
From Coquelicot Require Import Complex.
From Verif Require Import Prelude ExtReal Slice Sums Fft FftProofs Helpers Linalg LinalgProofs Cgd CgdOps CgdPrecond Metrics Shapes ShapesProofs StatsProofs Tensor TensorOps TensorCg TensorProofs TensorSdr.
Local Open Scope nat_scope.

Definition zeroC (_ _ : nat) : C := RtoC 0.
Lemma Csolve_ext n A A' b b' :
  (forall i j, i < n -> j < n -> A i j = A' i j) -> (forall i, i < n -> b i = b' i) ->
  match Csolve n A b, Csolve n A' b' with
  | Some x, Some x' => forall j, j < n -> x j = x' j
  | None, None => True
  | _, _ => False
  end.
Proof.
  intros HA Hb.
  assert (Hmv : forall v i, i < n -> Cmv n A v i = Cmv n A' v i).
  { intros v i Hi. apply Csum_ext. intros j Hj. rewrite HA; auto. }
  destruct (Csolve n A b) as [x|] eqn:E; destruct (Csolve n A' b') as [x'|] eqn:E'; auto.
  - apply (Csolve_uniq n A' b' x' x E'). intros i Hi. rewrite <- Hmv, <- Hb by auto. apply (Csolve_ok _ _ _ _ E); auto.
  - destruct (Csolve_none _ _ _ E') as (w & (j & Hj & Hw) & Hz). apply Hw.
    apply (Csolve_inj _ _ _ _ w E); auto. intros i Hi. rewrite Hmv by auto. apply Hz; auto.
  - destruct (Csolve_none _ _ _ E) as (w & (j & Hj & Hw) & Hz). apply Hw.
    apply (Csolve_inj _ _ _ _ w E'); auto. intros i Hi. rewrite <- Hmv by auto. apply Hz; auto.
Qed.
Lemma cinv_ext n A A' : (forall i j, i < n -> j < n -> A i j = A' i j) ->
  match cinv n A, cinv n A' with
  | Ok X, Ok X' => forall i j, i < n -> X i j = X' i j
  | Raise e, Raise e' => e = e'
  | _, _ => False
  end.
Proof.
  intros HA. unfold cinv.
  pose proof (Csolve_ext n A A' (fun _ => RtoC 0) (fun _ => RtoC 0) HA (fun _ _ => eq_refl)) as H0.
  destruct (Csolve n A (fun _ => RtoC 0)); destruct (Csolve n A' (fun _ => RtoC 0)); try contradiction; auto.
  intros i j Hi.
  pose proof (Csolve_ext n A A' (fun i => if Nat.eqb i j then RtoC 1 else RtoC 0)
     (fun i => if Nat.eqb i j then RtoC 1 else RtoC 0) HA (fun _ _ => eq_refl)) as H1.
  destruct (Csolve n A _); destruct (Csolve n A' _); try contradiction; auto.
Qed.

(** One inverse per index of the batch axes of the matrix. *)
Lemma inv_rep K nj bs e x v : rep [K; K; nj] bs e x v ->
  let run := fun m j => cinv K (fun r s => v m [s; r; j]) in
  (exists z, t_inv x = Ok z /\ (forall m j, inr e m -> j < nj -> is_ok (run m j)) /\
     rep [K; K; nj] bs e z (fun m ci => okv zeroC (run m (nth 2 ci 0)) (nth 1 ci 0) (nth 0 ci 0))) \/
  (raises (t_inv x) /\ (Forall (lt 0) e -> exists m j, inr e m /\ j < nj /\ raises (run m j))).
Proof.
  intros Hx run. pose proof (rep_sh _ _ _ _ _ Hx) as Hs. cbn [app] in Hs.
  assert (Hext : forall m j, inr e m -> j < nj ->
    match run m j, cinv K (fun r s => tat x (s :: r :: j :: bix bs m)) with
    | Ok X, Ok X' => forall r s, r < K -> X r s = X' r s
    | Raise e, Raise e' => e = e'
    | _, _ => False
    end).
  { intros m j Hm Hj. apply cinv_ext. intros r s Hr Hsk. symmetry.
    apply (rep_at _ _ _ _ _ Hx m [s; r; j]); auto. apply inr3'; auto. }
  unfold t_inv. rewrite Hs. cbn [hd tl].
  match goal with |- context [mapM ?f ?xs] => pose proof (mapM_inv f xs) as HM; destruct (mapM f xs) as [ys|er] end; cbn [bind].
  - left. eexists. split; [reflexivity|].
    assert (Hok : forall m j, inr e m -> j < nj -> exists X, cinv K (fun r s => tat x (s :: r :: j :: bix bs m)) = Ok X).
    { intros m j Hm Hj. destruct (HM (j :: bix bs m)) as [X HX].
      - apply in_indices. constructor; auto. apply (inr_bix bs e); auto. apply (rep_le _ _ _ _ _ Hx).
      - eauto. }
    split.
    + intros m j Hm Hj. destruct (Hok m j Hm Hj) as [X' HX']. pose proof (Hext m j Hm Hj) as H. rewrite HX' in H.
      destruct (run m j); [eexists; reflexivity|contradiction].
    + split; [reflexivity|apply (rep_le _ _ _ _ _ Hx)|].
      intros m ci Hm Hc. apply inr3 in Hc. destruct Hc as (s & r & j & -> & Hsk & Hr & Hj). cbn [app tat nth].
      destruct (Hok m j Hm Hj) as [X' HX']. rewrite HX'. pose proof (Hext m j Hm Hj) as H. rewrite HX' in H.
      destruct (run m j); [|contradiction]. cbn [okv]. symmetry. auto.
  - right. split; [eexists; reflexivity|]. intros He. destruct HM as (i & Hi & Ei). apply in_indices in Hi.
    inversion Hi as [|j nj' i' bs' Hj Hi']; subst.
    destruct (bix_surj bs e i' (rep_le _ _ _ _ _ Hx) Hi' He) as (m & Hm & Em).
    exists m, j. split; auto. split; auto. pose proof (Hext m j Hm Hj) as H. rewrite Em, Ei in H.
    destruct (run m j); [contradiction|eexists; reflexivity].
Qed.

(** Block columns. *)
Definition blk (K n : nat) (bs e : shape) (t : tensor R) (G : idx -> nat -> nat -> list R) : Prop :=
  rep [K; K; n] bs e t (fun m ci => nth (nth 2 ci 0) (G m (nth 1 ci 0) (nth 0 ci 0)) 0%R).

Section Apply.
  Context (l : lib) (K n k nf : nat) (bs e : shape) (Cf : tensor C) (Ct : idx -> nat -> nat -> list C).
  Hypothesis HK : 0 < K.
  Hypothesis HCf : rep [K; K; nf / 2 + 1] bs e Cf (fun m ci => nth (nth 2 ci 0) (Ct m (nth 1 ci 0) (nth 0 ci 0)) c0).
  Lemma apply_rep x G : cols (n * K) k e x G ->
    exists q, t_ein_rm l Cf (t_rfft 2 nf (unflat K x)) = Ok q /\
      rep [k; K; nf] e e (t_irfft 2 nf q)
        (fun m ci => nth (nth 2 ci 0) (block_apply nf n K (Ct m) (G m (nth 0 ci 0)) (nth 1 ci 0)) 0%R).
  Proof.
    intros Hx. assert (Hx' : rep [k; K * n] e e x (fun m ci => nth (nth 1 ci 0) (G m (nth 0 ci 0)) 0%R))
      by (rewrite Nat.mul_comm; exact Hx).
    pose proof (unflat_rep k K n e e x _ Hx' ltac:(lia)) as Hu.
    assert (Hu' : rep [k; K; n] e e (unflat K x)
       (fun m ci => nth (nth 2 ci 0) (chan_of K n (nth 1 ci 0) (G m (nth 0 ci 0))) 0%R)).
    { eapply rep_eq; [exact Hu|]. intros m ci Hm Hc. apply inr3 in Hc. destruct Hc as (d & r & i & -> & Hd & Hr & Hi).
      cbv beta. cbn [nth]. unfold chan_of. rewrite nth_tab by auto. reflexivity. }
    assert (HY : rep [k; K; nf / 2 + 1] e e (t_rfft 2 nf (unflat K x))
       (fun m ci => nth (nth 2 ci 0) (rfft nf (chan_of K n (nth 1 ci 0) (G m (nth 0 ci 0)))) c0)).
    { apply (along_repL 2 0%R c0 (rfft nf) [k; K; n] e e _ (fun m ci => chan_of K n (nth 1 ci 0) (G m (nth 0 ci 0))) (nf / 2 + 1)).
      - exact Hu'.
      - cbn; lia.
      - intros m [|a [|b [|c ci]]] j; reflexivity.
      - intros; apply length_tab.
      - intros; apply length_rfft. }
    destruct (ein_rm_rep l K K k _ bs e e Cf _ _ _ HCf HY) as (q & u & Eq & Eu & Hq).
    pose proof (rep_le _ _ _ _ _ HCf) as Hle. unfold sle in Hle. rewrite Hle in Eu. injection Eu as <-.
    exists q. split; auto.
    eapply rep_eq; [apply (along_rep 2 c0 0%R (irfft nf) _ _ _ _ _ nf Hq); [cbn; lia|intros; apply length_irfft]|].
    intros m ci Hm Hc. apply inr3 in Hc. destruct Hc as (d & r & i & -> & Hd & Hr & Hi). cbv beta. cbn [nth put].
    reflexivity.
  Qed.
End Apply.

Section Block.
  Context (l : lib) (K n k : nat) (bs e : shape) (col : tensor R) (F : idx -> nat -> nat -> list R).
  Hypothesis Hn : 2 <= n.
  Hypothesis HK : 0 < K.
  Hypothesis Hcol : blk K (2 * n) bs e col F.
  Hypothesis HF : forall m r c, length (F m r c) = 2 * n.

  Lemma blk_sh : tsh col = K :: K :: 2 * n :: bs.
  Proof. exact (rep_sh _ _ _ _ _ Hcol). Qed.
  Lemma flat_cols t (G : idx -> nat -> nat -> list R) n' : rep [k; K; n'] e e t (fun m ci => nth (nth 2 ci 0) (G m (nth 0 ci 0) (nth 1 ci 0)) 0%R) ->
    cols (n' * K) k e (flat23 t) (fun m d => flatten K n' (G m d)).
  Proof.
    intros H. eapply rep_eq; [apply (flat23_rep k K n' e e t _ H)|]. intros m ci Hm Hc. apply inr2 in Hc.
    destruct Hc as (d & p & -> & Hd & Hp). cbv beta. cbn [nth]. unfold flatten. rewrite nth_tab by auto. reflexivity.
  Qed.

  Lemma block_op_cols x G : cols (n * K) k e x G -> (forall m c, inr e m -> c < k -> length (G m c) = n * K) ->
    exists y, t_block_op l col x = Ok y /\ cols (n * K) k e y (fun m c => dense_block (2 * n) K (F m) (G m c)).
  Proof.
    intros Hx _. unfold t_block_op. rewrite blk_sh. cbn [nth]. rewrite half2.
    set (nf := 2 ^ Nat.log2_up (2 * n)).
    assert (Hnf : 2 * n <= nf) by (apply Nat.log2_log2_up_spec; lia).
    assert (Hnt : bk l = Torch -> 2 <= n) by auto.
    replace (nth 1 (tsh x) 0) with (n * K) by (rewrite (rep_sh _ _ _ _ _ Hx); reflexivity).
    rewrite (Nat.mul_comm n K), Nat.eqb_refl, (Nat.mul_comm K n).
    assert (Hcc : blk K nf bs e (along 2 0%R 0%R (block_circ_col (bk l) n nf) col)
                (fun m r c => block_circ_col (bk l) n nf (F m r c))).
    { apply (along_repL 2 0%R 0%R (block_circ_col (bk l) n nf) [K; K; 2 * n] bs e col (fun m ci => F m (nth 1 ci 0) (nth 0 ci 0)) nf).
      - exact Hcol.
      - cbn; lia.
      - intros m [|a [|b [|c ci]]] j; reflexivity.
      - intros; apply HF.
      - intros y Hy. cbn [nth] in Hy. apply length_block_circ; auto; lia. }
    assert (Ecc : nth 2 (tsh (along 2 0%R 0%R (block_circ_col (bk l) n nf) col)) 0 = nf)
      by (rewrite (rep_sh _ _ _ _ _ Hcc); reflexivity).
    rewrite Ecc.
    assert (Hcf : rep [K; K; nf / 2 + 1] bs e (t_rfft 2 nf (along 2 0%R 0%R (block_circ_col (bk l) n nf) col))
              (fun m ci => nth (nth 2 ci 0) (rfft nf (block_circ_col (bk l) n nf (F m (nth 1 ci 0) (nth 0 ci 0)))) c0)).
    { apply (along_repL 2 0%R c0 (rfft nf) [K; K; nf] bs e _
         (fun m ci => block_circ_col (bk l) n nf (F m (nth 1 ci 0) (nth 0 ci 0))) (nf / 2 + 1)).
      - exact Hcc.
      - cbn; lia.
      - intros m [|a [|b [|c ci]]] j; reflexivity.
      - intros; apply length_block_circ; auto; lia.
      - intros; apply length_rfft. }
    destruct (apply_rep l K n k nf bs e _ (fun m r c => rfft nf (block_circ_col (bk l) n nf (F m r c))) HK Hcf x G Hx) as (q & -> & Hq).
    cbn [bind]. eexists. split; [reflexivity|].
    assert (Hsl : rep [k; K; n] e e (along 2 0%R 0%R (pyslice None (Some (Z.of_nat n)) 1) (t_irfft 2 nf q))
       (fun m ci => nth (nth 2 ci 0) (pyslice None (Some (Z.of_nat n)) 1
          (block_apply nf n K (fun r c => rfft nf (block_circ_col (bk l) n nf (F m r c))) (G m (nth 0 ci 0)) (nth 1 ci 0))) 0%R)).
    { apply (along_repL 2 0%R 0%R _ [k; K; nf] e e _
        (fun m ci => block_apply nf n K (fun r c => rfft nf (block_circ_col (bk l) n nf (F m r c))) (G m (nth 0 ci 0)) (nth 1 ci 0)) n).
      - exact Hq.
      - cbn; lia.
      - intros m [|a [|b [|c ci]]] j; reflexivity.
      - intros; apply length_irfft.
      - intros y Hy. cbn [nth] in Hy. rewrite (slice_to _ _ 0%R), length_tab. lia. }
    eapply cols_eq; [apply (flat_cols _ (fun m d r => pyslice None (Some (Z.of_nat n)) 1
          (block_apply nf n K (fun r c => rfft nf (block_circ_col (bk l) n nf (F m r c))) (G m d) r)) n Hsl)|].
    intros m c Hm Hc. cbv beta. rewrite <- (block_toeplitz_op_dense (bk l)).
    - unfold block_toeplitz_op. rewrite half2. fold nf. cbv zeta.
      apply flatten_ext. intros r Hr i Hi. do 2 f_equal. unfold block_apply. f_equal.
      apply tab_ext. intros j Hj. apply Csum_ext. intros c' Hc'. rewrite length_block_circ; auto; lia.
    - rewrite half2. reflexivity.
    - lia.
    - lia.
    - intros; apply HF.
  Qed.

  Lemma npcol_eq r : length r = 2 * n -> npcol (bk l) r = nonsym_col n r.
  Proof. intros H. unfold npcol. rewrite (nonsym_precond_col_ok _ n) by (auto; lia). reflexivity. Qed.
  Lemma length_npcol r : length r = 2 * n -> length (npcol (bk l) r) = n.
  Proof. intros H. rewrite npcol_eq by auto. apply length_tab. Qed.

  (** the inverse spectra *)
  Let ct (m : idx) (r s j : nat) : C := nth j (rfft n (nonsym_col n (F m r s))) (RtoC 0).
  Lemma block_inv_rep :
    (exists Ci, t_block_inv l col = Ok Ci /\ (forall m, inr e m -> exists inv, prec_inv K n (F m) = Ok inv) /\
       rep [K; K; n / 2 + 1] bs e Ci (fun m ci => nth (nth 2 ci 0)
          (map (fun M : nat -> nat -> C => M (nth 1 ci 0) (nth 0 ci 0)) (okv [] (prec_inv K n (F m)))) c0)) \/
    (raises (t_block_inv l col) /\ (Forall (lt 0) e -> exists m, inr e m /\ raises (prec_inv K n (F m)))).
  Proof.
    unfold t_block_inv. rewrite blk_sh. cbn [nth].
    rewrite (nonsym_precond_col_ok _ n) by (rewrite ?repeat_length; auto; lia).
    assert (Hcp : blk K n bs e (along 2 0%R 0%R (npcol (bk l)) col) (fun m r c => npcol (bk l) (F m r c))).
    { apply (along_repL 2 0%R 0%R (npcol (bk l)) [K; K; 2 * n] bs e col (fun m ci => F m (nth 1 ci 0) (nth 0 ci 0)) n).
      - exact Hcol.
      - cbn; lia.
      - intros m [|a [|b [|c ci]]] j; reflexivity.
      - intros; apply HF.
      - intros y Hy. apply length_npcol. exact Hy. }
    assert (Ecp : nth 2 (tsh (along 2 0%R 0%R (npcol (bk l)) col)) 0 = n) by (rewrite (rep_sh _ _ _ _ _ Hcp); reflexivity).
    rewrite Ecp.
    assert (Hcf : rep [K; K; n / 2 + 1] bs e (t_rfft 2 n (along 2 0%R 0%R (npcol (bk l)) col))
              (fun m ci => ct m (nth 1 ci 0) (nth 0 ci 0) (nth 2 ci 0))).
    { eapply rep_eq; [apply (along_repL 2 0%R c0 (rfft n) [K; K; n] bs e _
         (fun m ci => npcol (bk l) (F m (nth 1 ci 0) (nth 0 ci 0))) (n / 2 + 1))|].
      - exact Hcp.
      - cbn; lia.
      - intros m [|a [|b [|c ci]]] j; reflexivity.
      - intros. apply length_npcol, HF.
      - intros; apply length_rfft.
      - intros m ci Hm Hc. cbv beta. rewrite npcol_eq by apply HF. reflexivity. }
    assert (Hpi : forall m, prec_inv K n (F m) = mapM (fun j => cinv K (fun r s => ct m r s j)) (tab (n / 2 + 1) (fun j => j))).
    { intros m. unfold prec_inv. f_equal. symmetry. apply map_id. }
    destruct (inv_rep K (n / 2 + 1) bs e _ _ Hcf) as [(z & Ez & Hok & Hz)|(Hr & Hm)].
    - left. exists z. split; auto.
      assert (HI : forall m, inr e m -> exists inv, prec_inv K n (F m) = Ok inv /\ length inv = n / 2 + 1 /\
         forall j, j < n / 2 + 1 -> cinv K (fun r s => ct m r s j) = Ok (nth j inv zeroC)).
      { intros m Hm. rewrite Hpi. pose proof (mapM_tab (fun j => cinv K (fun r s => ct m r s j)) (n / 2 + 1) (fun j => j) zeroC) as HM.
        destruct (mapM _ _) as [inv|er]; [exists inv; tauto|]. destruct HM as (j & Hj & Ej).
        destruct (Hok m j Hm Hj) as [X HX]. cbn [nth] in HX. congruence. }
      split.
      + intros m Hm. destruct (HI m Hm) as (inv & Einv & _). eauto.
      + eapply rep_eq; [exact Hz|]. intros m ci Hm Hc. apply inr3 in Hc. destruct Hc as (s & r & j & -> & Hs & Hrk & Hj).
        cbv beta. cbn [nth]. destruct (HI m Hm) as (inv & -> & Hlen & Hinv). rewrite (Hinv j Hj). cbn [okv].
        change c0 with ((fun M : nat -> nat -> C => M r s) zeroC). rewrite map_nth. reflexivity.
    - right. split; auto. intros He. destruct (Hm He) as (m & j & Hme & Hj & er & Her). exists m. split; auto.
      rewrite Hpi. pose proof (mapM_tab (fun j => cinv K (fun r s => ct m r s j)) (n / 2 + 1) (fun j => j) zeroC) as HM.
      destruct (mapM _ _) as [inv|er']; [|eexists; reflexivity]. destruct HM as [_ HM]. specialize (HM j Hj).
      cbn [nth] in Her. congruence.
  Qed.

  Lemma block_precond_cols Ci inv x G :
    rep [K; K; n / 2 + 1] bs e Ci (fun m ci => nth (nth 2 ci 0)
          (map (fun M : nat -> nat -> C => M (nth 1 ci 0) (nth 0 ci 0)) (inv m)) c0) ->
    cols (n * K) k e x G ->
    exists y, t_block_precond l n Ci x = Ok y /\ cols (n * K) k e y (fun m c => block_prec K n (inv m) (G m c)).
  Proof.
    intros HC Hx. unfold t_block_precond.
    replace (nth 0 (tsh Ci) 0) with K by (rewrite (rep_sh _ _ _ _ _ HC); reflexivity).
    replace (nth 1 (tsh x) 0) with (n * K) by (rewrite (rep_sh _ _ _ _ _ Hx); reflexivity).
    rewrite (Nat.mul_comm n K), Nat.eqb_refl, (Nat.mul_comm K n).
    destruct (apply_rep l K n k n bs e _ (fun m r c => map (fun M : nat -> nat -> C => M r c) (inv m)) HK HC x G Hx) as (q & -> & Hq).
    cbn [bind]. eexists. split; [reflexivity|].
    apply (flat_cols _ (fun m d r => block_apply n n K (fun r c => map (fun M : nat -> nat -> C => M r c) (inv m)) (G m d) r) n Hq).
  Qed.

  Hypothesis HL : length bs = length e.
  Lemma block_cg_rep b B x0 X0 n_iter : cols (n * K) k e b B -> (forall m c, inr e m -> c < k -> length (B m c) = n * K) ->
    match x0 with
    | Some x => cols (n * K) k e x X0 /\ forall m c, inr e m -> c < k -> length (X0 m c) = n * K
    | None => forall m c, X0 m c = repeat 0%R (n * K)
    end ->
    (exists z, t_block_cg l col b n_iter x0 = Ok z /\ (forall m, inr e m -> exists inv, prec_inv K n (F m) = Ok inv) /\
       cols (n * K) k e z (fun m d => block_cg_spec K n (F m) (okv [] (prec_inv K n (F m))) (B m d) (X0 m d) n_iter)) \/
    (raises (t_block_cg l col b n_iter x0) /\ (Forall (lt 0) e -> exists m, inr e m /\ raises (prec_inv K n (F m)))).
  Proof.
    intros Hb HB HX. unfold t_block_cg.
    destruct block_inv_rep as [(Ci & -> & Hok & HCi)|((er & ->) & Hr)].
    - left. cbn [bind]. rewrite blk_sh. cbn [nth skipn]. rewrite half2, length_npcol by apply repeat_length.
      destruct (cg_holds l (n * K) k e (t_block_op l col) (t_block_precond l n Ci)
         (fun m => dense_block (2 * n) K (F m)) (fun m => block_prec K n (okv [] (prec_inv K n (F m))))
         (fun x G Hx HG => block_op_cols x G Hx HG)
         (fun x G Hx _ => block_precond_cols Ci (fun m => okv [] (prec_inv K n (F m))) x G HCi Hx)) with
         (b := b) (B := B) (x0 := x0) (X0 := X0) (n_iter := n_iter)
         (A := K * n :: K * n :: bs) as (z & E & Hz); auto.
      + intros; apply length_block_prec.
      + cbn. rewrite HL. reflexivity.
      + cbn. lia.
      + exists z. auto.
    - right. split; auto. cbn [bind]. eexists. reflexivity.
  Qed.
End Block.
