(** * What sdr, sdr_pit_loss and bss_eval_sources return (C06-C10, C21, C30-C33, C37, C44) *)
From Coq Require Import Reals Lra.
From Verif Require Import Prelude ExtReal Slice Sums Spec SpecSig Fft Helpers HelpersProofs PermProofs
  DbProofs Linalg LinalgProofs Cgd Metrics StatsProofs LeastSq PrepProofs MetricsProofs SarProofs
  ProjTheorems MetricTheorems.
Local Open Scope nat_scope.

(** ** Outputs are read at the pairs given by perm (C07, C10) *)
Theorem sdr_outputs b sp o cs ref est vals perm : lsa_contract sp ->
  sdr b sp o cs ref est = Ok (vals, perm) ->
  exists loss, pairwise_sdr_loss b o est ref = Ok loss /\
    complete_assignment (n_chan ref) (n_chan est) (matching (n_chan ref) (n_chan est) perm) /\
    length perm = Nat.min (n_chan ref) (n_chan est) /\ NoDup perm /\
    (forall p, In p perm -> p < Nat.max (n_chan ref) (n_chan est)) /\
    vals = map (fun p => let v := at_pair (mat_of loss) p in if cs then v else xneg v)
               (matching (n_chan ref) (n_chan est) perm).
Proof.
  intros Hsp H. unfold sdr in H. destruct (pairwise_sdr_loss b o est ref) as [neg|]; [|discriminate].
  cbn [bind] in H.
  destruct (solve_permutation b sp (n_chan ref) (n_chan est) (mat_of neg) []) as [[[v a] p]|] eqn:E; [|discriminate].
  cbn [bind] in H. injection H as <- <-. exists neg. split; auto.
  destruct (solve_perm_outputs sp Hsp b _ _ _ _ _ _ _ E) as (H1 & H2 & H3 & H4 & H5 & H6).
  repeat (split; [assumption|]). rewrite H5. destruct cs; auto.
  rewrite map_map. reflexivity.
Qed.

Theorem bss_outputs b sp o ref est s i a perm : lsa_contract sp ->
  bss_eval_sources b sp o ref est = Ok (s, i, a, perm) ->
  exists c, sq_cos b o ref est = Ok c /\
    let '(nsdr, nsir, nsar) := bss_mats o c in
    complete_assignment (n_chan ref) (n_chan est) (matching (n_chan ref) (n_chan est) perm) /\
    length perm = Nat.min (n_chan ref) (n_chan est) /\ NoDup perm /\
    (forall p, In p perm -> p < Nat.max (n_chan ref) (n_chan est)) /\
    s = map (fun p => xneg (at_pair nsdr p)) (matching (n_chan ref) (n_chan est) perm) /\
    i = map (fun p => xneg (at_pair nsir p)) (matching (n_chan ref) (n_chan est) perm) /\
    a = map (fun p => xneg (at_pair nsar p)) (matching (n_chan ref) (n_chan est) perm).
Proof.
  intros Hsp H. unfold bss_eval_sources in H. destruct (sq_cos b o ref est) as [c|]; [|discriminate].
  cbn [bind] in H. exists c. split; auto.
  destruct (bss_mats o c) as [[nsdr nsir] nsar].
  destruct (solve_permutation b sp (n_chan ref) (n_chan est) nsir [nsdr; nsar]) as [[[v ar] p]|] eqn:E; [|discriminate].
  cbn [bind] in H. injection H as <- <- <- <-.
  destruct (solve_perm_outputs sp Hsp b _ _ _ _ _ _ _ E) as (H1 & H2 & H3 & H4 & H5 & H6).
  repeat (split; [assumption|]). subst v ar. simpl. rewrite !map_map. auto.
Qed.

(** ** The total is the best possible (C08, C09) *)
Definition total_sdr (l : list xr) : R := sumR (map to_R l).
Lemma sumR_opp {A} (f : A -> R) l : sumR (map (fun p => - f p)%R l) = (- sumR (map f l))%R.
Proof. induction l; simpl; [ring|]. rewrite IHl. ring. Qed.
Lemma to_R_xneg v : to_R (xneg v) = (- to_R v)%R.
Proof. destruct v; simpl; ring. Qed.

Theorem sdr_optimal b sp o ref est loss : lsa_contract sp ->
  pairwise_sdr_loss b o est ref = Ok loss ->
  (forall i j, i < n_chan ref -> j < n_chan est -> is_fin (mat_of loss i j) = true) ->
  exists vals perm, sdr b sp o false ref est = Ok (vals, perm) /\
    forall l', complete_assignment (n_chan ref) (n_chan est) l' ->
      (sumR (map (fun p => to_R (xneg (at_pair (mat_of loss) p))) l') <= sumR (map to_R vals))%R.
Proof.
  intros Hsp H Hf. unfold sdr. rewrite H. cbn [bind].
  destruct (solve_perm_optimal sp Hsp b _ _ (mat_of loss) [] Hf) as (out & outs & perm & E & Ho).
  rewrite E. cbn [bind]. do 2 eexists. split; [reflexivity|].
  destruct (solve_perm_outputs sp Hsp b _ _ _ _ _ _ _ E) as (_ & _ & _ & _ & H5 & _).
  intros l' Hl'. destruct Ho as [_ Ho]. specialize (Ho l' Hl'). unfold total_cost in Ho.
  rewrite H5, !map_map. unfold at_pair.
  rewrite (map_ext _ (fun p => (- to_R (mat_of loss (fst p) (snd p)))%R) (fun p => to_R_xneg _)).
  rewrite (map_ext (fun x : nat * nat => to_R (xneg _)) (fun p => (- to_R (mat_of loss (fst p) (snd p)))%R) (fun p => to_R_xneg _)).
  rewrite !sumR_opp. lra.
Qed.

Theorem bss_optimal b sp o ref est c : lsa_contract sp ->
  sq_cos b o ref est = Ok c ->
  let '(nsdr, nsir, nsar) := bss_mats o c in
  (forall i j, i < n_chan ref -> j < n_chan est -> is_fin (nsir i j) = true) ->
  exists s i a perm, bss_eval_sources b sp o ref est = Ok (s, i, a, perm) /\
    forall l', complete_assignment (n_chan ref) (n_chan est) l' ->
      (sumR (map (fun p => to_R (xneg (at_pair nsir p))) l') <= sumR (map to_R i))%R.
Proof.
  intros Hsp H. unfold bss_eval_sources. rewrite H. cbn [bind].
  destruct (bss_mats o c) as [[nsdr nsir] nsar]. intros Hf.
  destruct (solve_perm_optimal sp Hsp b _ _ nsir [nsdr; nsar] Hf) as (out & outs & perm & E & Ho).
  rewrite E. cbn [bind]. do 4 eexists. split; [reflexivity|].
  destruct (solve_perm_outputs sp Hsp b _ _ _ _ _ _ _ E) as (_ & _ & _ & _ & H5 & _).
  intros l' Hl'. destruct Ho as [_ Ho]. specialize (Ho l' Hl'). unfold total_cost in Ho.
  rewrite H5, !map_map. unfold at_pair.
  rewrite (map_ext _ (fun p => (- to_R (nsir (fst p) (snd p)))%R) (fun p => to_R_xneg _)).
  rewrite (map_ext (fun x : nat * nat => to_R (xneg _)) (fun p => (- to_R (nsir (fst p) (snd p)))%R) (fun p => to_R_xneg _)).
  rewrite !sumR_opp. lra.
Qed.

(** ** sdr_pit_loss is the negated sdr (C33) *)
Theorem pit_is_neg_sdr b sp o ref est :
  sdr_pit_loss b sp o est ref =
    (do r <- sdr b sp o false ref est; Ok (map xneg (fst r))) /\
  (forall v p, sdr b sp o true ref est = Ok (v, p) <->
     exists v', sdr b sp o false ref est = Ok (v', p) /\ v = map xneg v').
Proof.
  assert (Hx : forall l, map xneg (map xneg l) = l).
  { intros l. rewrite map_map. rewrite <- (map_id l) at 2. apply map_ext.
    intros [r| | |]; simpl; auto. rewrite Ropp_involutive. reflexivity. }
  split.
  - unfold sdr_pit_loss, sdr. destruct (pairwise_sdr_loss b o est ref); auto. cbn [bind].
    destruct (solve_permutation b sp (n_chan ref) (n_chan est) (mat_of a) []) as [[[v ar] p]|]; auto.
    cbn [bind fst]. rewrite Hx. reflexivity.
  - intros v p. unfold sdr. destruct (pairwise_sdr_loss b o est ref); cbn [bind].
    2:{ split; [discriminate|]. intros (v' & E & _). discriminate. }
    destruct (solve_permutation b sp (n_chan ref) (n_chan est) (mat_of a) []) as [[[u ar] q]|]; cbn [bind].
    2:{ split; [discriminate|]. intros (v' & E & _). discriminate. }
    split.
    + intros E. injection E as <- <-. eexists. split; [reflexivity|]. rewrite Hx. reflexivity.
    + intros (v' & E & ->). injection E as <- <-. rewrite Hx. reflexivity.
Qed.
