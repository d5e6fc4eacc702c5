(** * The gradient of sdr, sdr_pit_loss and sdr_loss *)
From Coq Require Import Reals Lra.
From Verif Require Import Prelude ExtReal Sums Spec Helpers Metrics SpecSig PrepProofs StatsProofs DbProofs MetricsProofs ProjTheorems MetricTheorems
  Cells Diag Outputs PermProofs Invariance Gradient Autograd AutogradEntry AutogradProofs AutogradTheorems AutogradCg AutogradCgTheorems AutogradPit.
Local Open Scope nat_scope.

(** ** An entry depends on its two channels only *)
Lemma coh_local b o ref est ref' est' m : a_len ref' = a_len ref -> a_len est' = a_len est ->
  (forall x, In x (a_chans ref') -> In x (a_chans ref)) ->
  sdr_coh b o ref est = Ok m ->
  exists m', sdr_coh b o ref' est' = Ok m' /\
    forall c d c' d', c < n_chan ref -> d < n_chan est -> c' < n_chan ref' -> d' < n_chan est' ->
      nth c (a_chans ref) [] = nth c' (a_chans ref') [] -> nth d (a_chans est) [] = nth d' (a_chans est') [] ->
      mat_of m c d = mat_of m' c' d'.
Proof.
  intros Lr Le Hin H.
  assert (HP : forall zm (a : arr) i, nth i (prep_arr zm a) None = if i <? n_chan a then prep zm (nth i (a_chans a) []) else None).
  { intros zm a i. unfold prep_arr, n_chan. destruct (Nat.ltb_spec i (length (a_chans a))).
    - rewrite (nth_indep _ None (prep zm [])) by (rewrite map_length; auto). apply map_nth.
    - apply nth_overflow. rewrite map_length. auto. }
  destruct (Nat.eq_dec (filter_length o) 1) as [E1|N1].
  - unfold sdr_coh in *. rewrite E1, Nat.eqb_refl in *. rewrite Lr, Le.
    destruct (bc_len b (a_len ref) (a_len est)) as [n|]; [|discriminate]. cbn [bind] in *.
    injection H as <-. eexists. split; [reflexivity|].
    intros c d c' d' Hc Hd Hc' Hd' Ec Ed. unfold len1_sdr.
    rewrite !mat_of_map2 by (rewrite length_prep; auto). rewrite !HP.
    destruct (Nat.ltb_spec c (n_chan ref)), (Nat.ltb_spec c' (n_chan ref')), (Nat.ltb_spec d (n_chan est)), (Nat.ltb_spec d' (n_chan est')); try lia.
    rewrite Ec, Ed. reflexivity.
  - rewrite sdr_coh_entries in * by auto. rewrite Lr, Le.
    destruct (mapM (pair_check _ _ _ _) (prep_arr (zero_mean o) ref)) as [u|] eqn:Eu; [|discriminate]. cbn [bind] in H. injection H as <-.
    destruct (mapM_all_ok (pair_check (use_cg_iter o) (load_diag o) (n_fft (a_len ref) (a_len est)) (filter_length o)) (prep_arr (zero_mean o) ref')) as (u' & ->).
    { intros x Hx. unfold prep_arr in Hx. apply in_map_iff in Hx. destruct Hx as (r & <- & Hr).
      apply (mapM_ok_all _ _ u _ Eu). unfold prep_arr. apply in_map. auto. }
    cbn [bind]. eexists. split; [reflexivity|].
    intros c d c' d' Hc Hd Hc' Hd' Ec Ed.
    rewrite !mat_of_map2 by (rewrite length_prep; auto). rewrite !HP.
    destruct (Nat.ltb_spec c (n_chan ref)), (Nat.ltb_spec c' (n_chan ref')), (Nat.ltb_spec d (n_chan est)), (Nat.ltb_spec d' (n_chan est')); try lia.
    rewrite Ec, Ed. reflexivity.
Qed.
Lemma loss_local b o D D' ref est ref' est' m : a_len ref' = a_len ref -> a_len est' = a_len est ->
  (forall x, In x (a_chans ref') -> In x (a_chans ref)) ->
  pairwise_sdr_loss b (with_clamp o D) est ref = Ok m ->
  exists m', pairwise_sdr_loss b (with_clamp o D') est' ref' = Ok m' /\
    (D = D' -> forall c d c' d', c < n_chan ref -> d < n_chan est -> c' < n_chan ref' -> d' < n_chan est' ->
      nth c (a_chans ref) [] = nth c' (a_chans ref') [] -> nth d (a_chans est) [] = nth d' (a_chans est') [] ->
      mat_of m c d = mat_of m' c' d').
Proof.
  intros Lr Le Hin H. destruct (loss_inv _ _ _ _ _ H) as (m1 & E1 & ->).
  destruct (coh_local b o ref est ref' est' m1 Lr Le Hin E1) as (m2 & E2 & H2).
  exists (to_db (with_clamp o D') m2). split.
  - unfold pairwise_sdr_loss. change (sdr_coh b (with_clamp o D') ref' est') with (sdr_coh b o ref' est'). rewrite E2. reflexivity.
  - intros <- c d c' d' Hc Hd Hc' Hd' Ec Ed. rewrite !to_db_entry. f_equal. apply H2; auto.
Qed.
Lemma with_clamp_id o : with_clamp o (clamp_db o) = o.
Proof. destruct o; reflexivity. Qed.

(** ** Arrays of finite samples *)
Definition arr_of (T : nat) (ys : list (list R)) : arr := Arr T (map (map Fin) ys).
Definition shaped (K T : nat) (ys : list (list R)) : Prop := length ys = K /\ Forall (fun y => length y = T) ys.
(** ys + t hs *)
Definition rays (ys hs : list (list R)) (t : R) : list (list R) :=
  map (fun d => ray (nth d ys []) (nth d hs []) t) (seq 0 (length ys)).

Lemma shaped_nth K T ys d : shaped K T ys -> d < K -> length (nth d ys []) = T.
Proof. intros [L F] Hd. rewrite Forall_forall in F. apply F. apply nth_In. lia. Qed.
Lemma arr_of_chan T ys d : nth d (a_chans (arr_of T ys)) [] = map Fin (nth d ys []).
Proof. simpl. change (@nil xr) with (map Fin []). apply map_nth. Qed.
Lemma arr_of_n T ys : n_chan (arr_of T ys) = length ys.
Proof. unfold n_chan, arr_of. simpl. apply map_length. Qed.
Lemma arr_of_wf K T ys : 0 < T -> shaped K T ys -> wf (arr_of T ys).
Proof.
  intros HT [_ F]. split; auto. simpl. apply Forall_forall. intros x Hx. apply in_map_iff in Hx.
  destruct Hx as (y & <- & Hy). rewrite map_length. rewrite Forall_forall in F. auto.
Qed.
Lemma arr_of_has K T ys d : shaped K T ys -> d < K -> has_chan (arr_of T ys) d (nth d ys []).
Proof. intros [L _] Hd. split; [rewrite arr_of_n; lia|apply arr_of_chan]. Qed.
Lemma rays_shaped K T ys hs t : shaped K T ys -> shaped K T (rays ys hs t).
Proof.
  intros H. split; [unfold rays; rewrite map_length, seq_length; apply H|].
  apply Forall_forall. intros x Hx. unfold rays in Hx. apply in_map_iff in Hx. destruct Hx as (d & <- & Hd).
  apply in_seq in Hd. rewrite ray_length. apply (shaped_nth K); auto. destruct H; lia.
Qed.
Lemma nth_rays ys hs t d : d < length ys -> nth d (rays ys hs t) [] = ray (nth d ys []) (nth d hs []) t.
Proof.
  intros Hd. unfold rays.
  rewrite (nth_indep _ [] ((fun d => ray (nth d ys []) (nth d hs []) t) 0)) by (rewrite map_length, seq_length; auto).
  rewrite (map_nth (fun d => ray (nth d ys []) (nth d hs []) t)), seq_nth by auto. reflexivity.
Qed.

(** ** One channel *)
(** The derivative exists at y: the norm is not 1e-6, the losses are not at a kink of the clamp or infinite,
    and the iterations meet no kink. *)
Definition smooth (o : opts) (ref : arr) (m0 : list (list xr)) (d : nat) (y : list R) : Prop :=
  norm2 (pre (zero_mean o) y) <> norm_eps /\
  (forall c, c < n_chan ref ->
    match clamp_db o with
    | None => exists r, mat_of m0 c d = Fin r
    | Some D => (0 <= D)%R /\ mat_of m0 c d <> Fin D /\ mat_of m0 c d <> Fin (- D)
    end) /\
  (forall it, use_cg_iter o = Some it -> filter_length o <> 1 -> cg_no_kink o ref y it).

Definition one_chan (T : nat) (y : list R) : arr := Arr T [map Fin y].
Definition loss1 (o : opts) (ref : arr) (T : nat) (v : list R) : list (list xr) :=
  match pairwise_sdr_loss Torch o (one_chan T v) ref with Ok m => m | Raise _ => [] end.

Lemma one_chan_family T : 0 < T -> family (one_chan T) 0 T.
Proof.
  intros HT v Hv. split; [split; simpl; auto; constructor; [rewrite map_length; auto|constructor]|].
  split; [simpl; auto|reflexivity].
Qed.

Lemma est_grad_cg_direct o ref len y w : use_cg_iter o = None \/ filter_length o = 1 ->
  est_grad_cg o ref len y w = est_grad Torch (with_cg o None) ref len y w.
Proof.
  intros H. unfold est_grad_cg, est_grad. cbn [with_cg zero_mean].
  destruct (fin_list y) as [raw|]; auto. destruct (prep (zero_mean o) y) as [v|]; auto.
  assert (E : mapM (fun c => match nth c (prep_arr (zero_mean o) ref) None with
                             | Some x => entry_cg_bw o (a_len ref) len x v (w c) | None => Ok None end)
                (seq 0 (length (prep_arr (zero_mean o) ref))) =
              mapM (fun c => match nth c (prep_arr (zero_mean o) ref) None with
                             | Some x => entry_bw Torch (with_cg o None) (a_len ref) len x v (w c) | None => Ok None end)
                (seq 0 (length (prep_arr (zero_mean o) ref)))).
  { apply mapM_ext. intros c _. destruct (nth c (prep_arr (zero_mean o) ref) None) as [x|]; auto.
    unfold entry_cg_bw. destruct H as [H|H]; rewrite H; [reflexivity|].
    destruct (use_cg_iter o); reflexivity. }
  cbv zeta. rewrite E. reflexivity.
Qed.
Lemma loss_no_cg o ref est : use_cg_iter o = None \/ filter_length o = 1 ->
  pairwise_sdr_loss Torch (with_cg o None) est ref = pairwise_sdr_loss Torch o est ref.
Proof.
  intros [H|H].
  - f_equal. destruct o; simpl in *. subst. reflexivity.
  - unfold pairwise_sdr_loss, sdr_coh. cbn [with_cg filter_length zero_mean]. rewrite H. reflexivity.
Qed.

Lemma chan_gradient o ref T y w m0 : wf ref -> 0 < T -> length y = T ->
  (filter_length o = 1 -> a_len ref = T) ->
  (forall c, c < n_chan ref -> exists x, has_chan ref c x) ->
  pairwise_sdr_loss Torch (with_clamp o None) (one_chan T y) ref = Ok m0 ->
  smooth o ref m0 0 y ->
  exists g, est_grad_cg o ref T (map Fin y) w = Ok (map Fin g) /\ length g = T /\
    forall h, length h = T -> exists s,
      (forall c, c < n_chan ref -> slope (fun v => mat_of (loss1 o ref T v) c 0) y h (s c)) /\
      Rsum T (fun t => smp g t * smp h t)%R = Rsum (n_chan ref) (fun c => w c * s c)%R.
Proof.
  intros Hwr HT Ly HL1 Hxs Hm0 (HN & HR & HK).
  assert (Hok : forall v, length v = T -> pairwise_sdr_loss Torch o (one_chan T v) ref = Ok (loss1 o ref T v)).
  { intros v _. destruct (loss_local Torch o None (clamp_db o) ref (one_chan T y) ref (one_chan T v) m0 eq_refl eq_refl (fun x H => H) Hm0) as (m' & E & _).
    rewrite with_clamp_id in E. unfold loss1. rewrite E. reflexivity. }
  subst T.
  assert (HD : (use_cg_iter o = None \/ filter_length o = 1) \/ exists it, use_cg_iter o = Some it /\ filter_length o <> 1).
  { destruct (use_cg_iter o) as [it|]; auto. destruct (Nat.eq_dec (filter_length o) 1); eauto. }
  destruct HD as [HD|(it & Hit & N1)].
  - rewrite (est_grad_cg_direct o ref (length y) (map Fin y) w HD).
    apply (gradient_is_derivative Torch (with_cg o None) ref 0 y w (one_chan (length y)) (loss1 o ref (length y)) m0); auto.
    + apply one_chan_family; auto.
    + intros v Hv. rewrite loss_no_cg by auto. auto.
    + change (with_clamp (with_cg o None) None) with (with_cg (with_clamp o None) None).
      rewrite (loss_no_cg (with_clamp o None)); auto.
  - apply (cg_gradient_is_derivative o it ref Hwr Hit N1 Hxs 0 y w (one_chan (length y)) (loss1 o ref (length y)) m0); auto.
    apply one_chan_family; auto.
Qed.

(** ** All channels along a line *)
Lemma finite_choice2 {A} (a : A) n m (P : nat -> nat -> A -> Prop) :
  (forall c d, c < n -> d < m -> exists x, P c d x) -> exists f, forall c d, c < n -> d < m -> P c d (f c d).
Proof.
  intros H. destruct (fin_choice (fun _ => a) n (fun c g => forall d, d < m -> P c d (g d))) as (f & Hf); [|exists f; auto].
  intros c Hc. apply (fin_choice a m (P c)). auto.
Qed.
(** a common positive bound *)
Lemma common_bound n (P : nat -> R -> Prop) : (forall c e e', (0 < e' <= e)%R -> P c e -> P c e') ->
  (forall c, c < n -> exists e, (0 < e)%R /\ P c e) -> exists e, (0 < e)%R /\ forall c, c < n -> P c e.
Proof.
  intros HM. induction n as [|n IH]; intros H; [exists 1%R; split; [lra|intros; lia]|].
  destruct IH as (e & He & IH); [intros; apply H; lia|]. destruct (H n ltac:(lia)) as (e' & He' & Hn).
  exists (Rmin e e'). assert (0 < Rmin e e')%R by (apply Rmin_pos; auto). split; auto.
  intros c Hc. destruct (Nat.eq_dec c n) as [->|]; [apply (HM n e')|apply (HM c e)]; auto;
    try (apply IH; lia); split; auto; [apply Rmin_r|apply Rmin_l].
Qed.
Lemma common_bound2 n m (P : nat -> nat -> R -> Prop) : (forall c d e e', (0 < e' <= e)%R -> P c d e -> P c d e') ->
  (forall c d, c < n -> d < m -> exists e, (0 < e)%R /\ P c d e) -> exists e, (0 < e)%R /\ forall c d, c < n -> d < m -> P c d e.
Proof.
  intros HM H. destruct (common_bound n (fun c e => forall d, d < m -> P c d e)) as (e & He & HP).
  - intros c e e' He HP d Hd. eauto.
  - intros c Hc. apply common_bound; eauto.
  - exists e. auto.
Qed.

Section Line.
  Context (o : opts) (ref : arr) (T K : nat) (ys : list (list R)) (m0 : list (list xr)).
  Context (Hwr : wf ref) (HT : 0 < T) (Hys : shaped K T ys) (HL1 : filter_length o = 1 -> a_len ref = T).
  Context (Hxs : forall c, c < n_chan ref -> exists x, has_chan ref c x).
  Context (Hm0 : pairwise_sdr_loss Torch (with_clamp o None) (arr_of T ys) ref = Ok m0).
  Context (Hsm : forall d, d < K -> smooth o ref m0 d (nth d ys [])).

  Lemma chan_smooth d : d < K -> exists m1,
    pairwise_sdr_loss Torch (with_clamp o None) (one_chan T (nth d ys [])) ref = Ok m1 /\ smooth o ref m1 0 (nth d ys []).
  Proof.
    intros Hd.
    destruct (loss_local Torch o None None ref (arr_of T ys) ref (one_chan T (nth d ys [])) m0 eq_refl eq_refl (fun x H => H) Hm0) as (m1 & E1 & H1).
    exists m1. split; auto. destruct (Hsm d Hd) as (S1 & S2 & S3). split; [auto|split; auto].
    intros c Hc. rewrite <- (H1 eq_refl c d c 0 Hc); auto;
      solve [exact (S2 c Hc) | rewrite arr_of_n; destruct Hys; lia | rewrite arr_of_chan; reflexivity | simpl; auto].
  Qed.

  Lemma line_ok zs : exists m,
    pairwise_sdr_loss Torch o (arr_of T zs) ref = Ok m /\
    forall c d, c < n_chan ref -> d < length zs -> mat_of m c d = mat_of (loss1 o ref T (nth d zs [])) c 0.
  Proof.
    destruct (loss_local Torch o None (clamp_db o) ref (arr_of T ys) ref (arr_of T zs) m0 eq_refl eq_refl (fun x H => H) Hm0) as (m & E & _).
    rewrite with_clamp_id in E. exists m. split; auto. intros c d Hc Hd.
    rewrite <- (with_clamp_id o) in E.
    destruct (loss_local Torch o _ (clamp_db o) ref (arr_of T zs) ref (one_chan T (nth d zs [])) m eq_refl eq_refl (fun x H => H) E) as (m1 & E1 & H1).
    rewrite with_clamp_id in E1. unfold loss1. rewrite E1. apply H1; auto;
      solve [rewrite arr_of_n; auto | rewrite arr_of_chan; reflexivity | simpl; auto].
  Qed.

  Lemma line_losses hs : shaped K T hs -> exists (f : nat -> nat -> R -> R) (s : nat -> nat -> R) e, (0 < e)%R /\
    (forall c d, c < n_chan ref -> d < K -> derivable_pt_lim (f c d) 0 (s c d)) /\
    (forall t, (Rabs t < e)%R -> exists m, pairwise_sdr_loss Torch o (arr_of T (rays ys hs t)) ref = Ok m /\
       forall c d, c < n_chan ref -> d < K -> mat_of m c d = Fin (f c d t)) /\
    (forall d w, d < K -> exists g, est_grad_cg o ref T (map Fin (nth d ys [])) w = Ok (map Fin g) /\ length g = T /\
       Rsum T (fun t => smp g t * smp (nth d hs []) t)%R = Rsum (n_chan ref) (fun c => w c * s c d)%R).
  Proof.
    intros Hhs.
    assert (HS : forall c d, c < n_chan ref -> d < K -> exists l,
              slope (fun v => mat_of (loss1 o ref T v) c 0) (nth d ys []) (nth d hs []) l).
    { intros c d Hc Hd. destruct (chan_smooth d Hd) as (m1 & E1 & S1).
      destruct (chan_gradient o ref T (nth d ys []) (fun _ => 0%R) m1) as (g & _ & _ & Hg); auto.
      { apply (shaped_nth K); auto. }
      destruct (Hg (nth d hs []) (shaped_nth K T hs d Hhs Hd)) as (s & Hs & _). exists (s c). auto. }
    apply (finite_choice2 0%R) in HS. destruct HS as (s & Hs).
    assert (HF : forall c d, c < n_chan ref -> d < K -> exists f, derivable_pt_lim f 0 (s c d) /\ exists e, (0 < e)%R /\
       forall t, (Rabs t < e)%R -> mat_of (loss1 o ref T (ray (nth d ys []) (nth d hs []) t)) c 0 = Fin (f t)).
    { intros c d Hc Hd. destruct (Hs c d Hc Hd) as (f & (e & He & Hf) & HD). exists f. split; auto. exists e. auto. }
    apply (finite_choice2 (fun _ => 0%R)) in HF. destruct HF as (f & HF).
    destruct (common_bound2 (n_chan ref) K (fun c d e => forall t, (Rabs t < e)%R ->
       mat_of (loss1 o ref T (ray (nth d ys []) (nth d hs []) t)) c 0 = Fin (f c d t))) as (e & He & HE).
    { intros c d e e' He HP t Ht. apply HP. lra. }
    { intros c d Hc Hd. apply HF; auto. }
    exists f, s, e. split; auto. split; [intros; apply HF; auto|]. split.
    - intros t Ht. destruct (line_ok (rays ys hs t)) as (m & E & Hm). exists m. split; auto.
      intros c d Hc Hd. destruct (rays_shaped K T ys hs t Hys) as [L _]. rewrite Hm by (auto; lia).
      rewrite nth_rays by (destruct Hys; lia). auto.
    - intros d w Hd. destruct (chan_smooth d Hd) as (m1 & E1 & S1).
      destruct (chan_gradient o ref T (nth d ys []) w m1) as (g & E & Lg & Hg); auto.
      { apply (shaped_nth K); auto. }
      exists g. split; auto. split; auto.
      destruct (Hg (nth d hs []) (shaped_nth K T hs d Hhs Hd)) as (s' & Hs' & ->).
      apply Rsum_ext. intros c Hc. f_equal. apply (slope_unique _ _ _ _ _ (Hs' c Hc) (Hs c d Hc Hd)).
  Qed.
End Line.
