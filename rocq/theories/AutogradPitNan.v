(** * The gradient of sdr without clamp_db: which estimates get NaN *)
From Coq Require Import Reals Lra.
From Verif Require Import Prelude ExtReal Sums Spec SpecSig Helpers Metrics StatsProofs PrepProofs ProjTheorems MetricTheorems
  PermProofs Gradient Autograd AutogradTheorems AutogradCg AutogradPit AutogradPitProofs AutogradPitTheorems.
Local Open Scope nat_scope.

Theorem sdr_grad_nan_total sp o cs ref T K ys v m vals perm : wf ref -> 0 < T -> shaped K T ys ->
  (filter_length o = 1 -> a_len ref = T) ->
  (forall c, c < n_chan ref -> exists x, has_chan ref c x) ->
  use_cg_iter o = None -> (0 <= loadv (load_diag o))%R -> clamp_db o = None ->
  pairwise_sdr_loss Torch o (arr_of T ys) ref = Ok m ->
  sdr Torch sp o cs ref (arr_of T ys) = Ok (vals, perm) ->
  exists G, sdr_grad sp o cs ref (arr_of T ys) v = Ok G /\ length G = K /\
    forall c d, c < n_chan ref -> d < K -> mat_of m c d = PInf \/ mat_of m c d = NInf -> nth d G [] = repeat NaN T.
Proof.
  intros Hwr HT Hys HL1 Hxs Hcg Hld Hcl Hm Hs.
  assert (EK : n_chan (arr_of T ys) = K) by (rewrite arr_of_n; apply Hys).
  assert (HG : exists G, sdr_grad sp o cs ref (arr_of T ys) v = Ok G).
  { unfold sdr in Hs. unfold sdr_grad. rewrite Hm in *. cbn [bind] in *. rewrite EK in *.
    destruct (solve_permutation Torch sp (n_chan ref) K (mat_of m) []) as [[[out outs] perm']|ex] eqn:EP; [|discriminate]. cbn [bind] in *.
    apply mapM_all_ok. intros d Hd. apply in_seq in Hd. rewrite arr_of_chan. cbn [a_len arr_of].
    rewrite est_grad_cg_direct by auto. pose proof (shaped_nth K T ys d Hys ltac:(lia)) as Ld.
    assert (Hok : forall u, pairwise_sdr_loss Torch o (one_chan T u) ref = Ok (loss1 o ref T u)).
    { intros u. destruct (loss_local Torch o (clamp_db o) (clamp_db o) ref (arr_of T ys) ref (one_chan T u) m eq_refl eq_refl (fun x H => H)) as (m' & E & _).
      - rewrite with_clamp_id. exact Hm.
      - rewrite with_clamp_id in E. unfold loss1. rewrite E. reflexivity. }
    pose proof (grad_shape Torch (with_cg o None) ref 0 (nth d ys [])
     (fun c0 => perm_bw (n_chan ref) K perm' (fun k => if cs then v k else (- v k)%R) c0 d) (one_chan T) (loss1 o ref T) Hwr eq_refl) as Q.
    rewrite Ld in Q. destruct Q as [(g & E & _)|(E & _)]; auto.
    - apply one_chan_family; auto.
    - intros u _. rewrite loss_no_cg by auto. auto.
    - eexists. exact E.
    - eexists. exact E. }
  destruct HG as (G & HG). exists G. split; auto. split.
  - unfold sdr_grad in HG. rewrite Hm in HG. cbn [bind] in HG. rewrite EK in HG.
    destruct (solve_permutation Torch sp (n_chan ref) K (mat_of m) []) as [[[out outs] perm']|ex] eqn:EP; [|discriminate]. cbn [bind] in HG.
    apply mapM_length in HG. rewrite seq_length in HG. auto.
  - intros c d Hc Hd HI. exact (sdr_grad_nan sp o cs ref T K ys v m G c d Hwr HT Hys HL1 Hxs Hcg Hld Hcl Hm Hc Hd HI HG).
Qed.
