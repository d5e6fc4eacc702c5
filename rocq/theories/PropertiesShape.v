(** * Properties of the output shapes with batch axes (C55, C56, C57)

    Shapes are written with the last axis first: [T :: C :: b] is an array (b..., C, T). *)
From Verif Require Import Prelude Metrics Shapes ShapesProofs.
Local Open Scope nat_scope.

(** C55 *)
Theorem C55_loss_shape l L cg b C D T : l <> Np2 ->
  sh_sdr_loss l true L cg (T :: D :: b) (T :: C :: b) = Ok (D :: C :: b) /\
  sh_sdr_loss l false L cg (T :: C :: b) (T :: C :: b) = Ok (C :: b).
Proof. exact (equal_batch_loss l L cg b C D T). Qed.
Print Assumptions C55_loss_shape.
Example C55_ex1 :
  sh_sdr_loss Np1 true 512 (Some 10) [1000; 3; 5; 7] [1000; 2; 5; 7] = Ok [3; 2; 5; 7].
Proof. exact (proj1 (C55_loss_shape Np1 512 (Some 10) [5; 7] 2 3 1000 ltac:(discriminate))). Qed.

Theorem C55_sdr_shape l L cg b C D T :
  sh_sdr l L cg (T :: C :: b) (T :: D :: b) = Ok (Nat.min C D :: b).
Proof. exact (equal_batch_sdr l L cg b C D T). Qed.
Print Assumptions C55_sdr_shape.

(** "(..., n_channels_est)" in the documentation holds only when n_est <= n_ref. *)
Theorem C55_documented_shape_refuted : exists C D T,
  sh_sdr Np1 512 None [T; C] [T; D] = Ok [C] /\ C <> D.
Proof. exact sdr_shape_is_min. Qed.
Print Assumptions C55_documented_shape_refuted.

Theorem C55_bss_shape l L cg b C D T : 1 <= L <= T ->
  sh_bss l true L cg (T :: C :: b) (T :: D :: b)
    = Ok (Nat.min C D :: b, Nat.min C D :: b, Nat.min C D :: b) /\
  (l <> Np2 -> sh_bss l false L cg (T :: C :: b) (T :: C :: b) = Ok (C :: b, C :: b, C :: b)).
Proof. exact (equal_batch_bss l L cg b C D T). Qed.
Print Assumptions C55_bss_shape.
Example C55_ex2 : sh_bss Th2 false 16 None [100; 2; 4] [100; 2; 4] = Ok ([2; 4], [2; 4], [2; 4]).
Proof. exact (proj2 (C55_bss_shape Th2 16 None [4] 2 2 100 ltac:(lia)) ltac:(discriminate)). Qed.

(** C56 *)
Theorem C56_numpy2_raises L b C T : 2 <= L <= T -> C <> L ->
  sh_sdr_loss Np2 false L None (T :: C :: b) (T :: C :: b) = Raise ValueError /\
  sh_bss Np2 false L None (T :: C :: b) (T :: C :: b) = Raise ValueError /\
  (forall m, sh_sdr_loss Np2 false L (Some m) (T :: C :: b) (T :: C :: b) = Ok (C :: b)) /\
  (forall m, sh_bss Np2 false L (Some m) (T :: C :: b) (T :: C :: b) = Ok (C :: b, C :: b, C :: b)).
Proof. exact (np2_summary L b C T). Qed.
Print Assumptions C56_numpy2_raises.
Example C56_ex1 : sh_sdr_loss Np2 false 512 None [1000; 2] [1000; 2] = Raise ValueError.
Proof. exact (proj1 (C56_numpy2_raises 512 [] 2 1000 ltac:(lia) ltac:(lia))). Qed.

Theorem C56_numpy2_wrong_shape L T : 2 <= L <= T ->
  sh_sdr_loss Np2 false L None [T; L] [T; L] = Ok [L; L].
Proof. exact (np2_square L T). Qed.
Print Assumptions C56_numpy2_wrong_shape.
Example C56_ex2 : sh_sdr_loss Np2 false 2 None [100; 2] [100; 2] = Ok [2; 2].
Proof. exact (C56_numpy2_wrong_shape 2 100 ltac:(lia)). Qed.

Theorem C56_one_dimensional l L cg T : sh_sdr_loss l false L cg [T] [T] = Ok [].
Proof. exact (match_1d l L cg T T T (fun _ => bc1_refl T)). Qed.
Print Assumptions C56_one_dimensional.

(** C57 *)
Theorem C57_batch_broadcast l L m C D bx by' T e : L <> 1 -> broadcast_to bx by' e ->
  sh_sdr l L None (T :: C :: bx) (T :: D :: by') = Ok (Nat.min C D :: e) /\
  (length by' <= length bx ->
   sh_sdr l L (Some m) (T :: C :: bx) (T :: D :: by') = Ok (Nat.min C D :: e)) /\
  (length bx < length by' ->
   sh_sdr l L (Some m) (T :: C :: bx) (T :: D :: by') = Raise AssertionError).
Proof. exact (cg_vs_direct l L m C D bx by' T e). Qed.
Print Assumptions C57_batch_broadcast.
(** References of shape (2, T) and estimates of shape (5, 2, T). *)
Example C57_ex : sh_sdr Np1 512 None [1000; 2] [1000; 2; 5] = Ok [2; 5] /\
  sh_sdr Np1 512 (Some 10) [1000; 2] [1000; 2; 5] = Raise AssertionError.
Proof.
  assert (H : broadcast_to [] [5] [5]) by (apply bc_iff; reflexivity).
  destruct (C57_batch_broadcast Np1 512 10 2 2 [] [5] 1000 [5] ltac:(discriminate) H) as (h1 & _ & h3).
  exact (conj h1 (h3 ltac:(cbn; lia))).
Qed.

Theorem C57_incompatible l L cg C D bx by' T : ~ (exists e, broadcast_to bx by' e) ->
  sh_sdr l L cg (T :: C :: bx) (T :: D :: by') = Raise (lib_exn l).
Proof. exact (incompatible_batch l L cg C D bx by' T). Qed.
Print Assumptions C57_incompatible.
Example C57_ex2 : sh_sdr Th2 512 None [1000; 2; 3] [1000; 2; 4] = Raise RuntimeError.
Proof. exact (C57_incompatible Th2 512 None 2 2 [3] [4] 1000 (proj1 (bc_none_iff [3] [4]) eq_refl)). Qed.

Theorem C57_matched_more_axes_raises l L T C B : L <> 1 -> C <> Nat.min L (n_fft T T) ->
  sh_sdr_loss l false L None [T; C; B] [T; C] = Raise (lib_exn l).
Proof. exact (match_more_raises l L T C T B). Qed.
Print Assumptions C57_matched_more_axes_raises.
Example C57_ex3 : sh_sdr_loss Np1 false 512 None [1000; 2; 3] [1000; 2] = Raise (lib_exn Np1).
Proof.
  apply C57_matched_more_axes_raises; [discriminate|].
  assert (E : 2 ^ 11 = n_fft 1000 1000) by (unfold n_fft; f_equal).
  rewrite <- E. cbn. discriminate.
Qed.
