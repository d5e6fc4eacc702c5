(** * The wrappers for torch < 1.8 against the functions they stand for *)
From Coq Require Import Reals Lra.
From Coquelicot Require Import Complex.
From Verif Require Import Prelude Sums Fft FftProofs Slice Linalg Cgd Helpers Metrics StatsProofs
  CgdOps CgdPrecond Compat.
Local Open Scope nat_scope.

Lemma map_pair_back (Z : list C) :
  map (fun r => (nth 0 r 0%R, nth 1 r 0%R)) (map (fun z : C => [fst z; snd z]) Z) = Z.
Proof.
  rewrite map_map. cbn [nth]. induction Z as [|[a b] Z IH]; [reflexivity|].
  cbn [map fst snd]. now rewrite IH.
Qed.

Lemma rfft_ext n x y :
  (forall t, t < n -> nth t x 0%R = nth t y 0%R) -> rfft n x = rfft n y.
Proof.
  intros H. unfold rfft. apply tab_ext. intros k _. apply Csum_ext. intros t Ht. now rewrite H.
Qed.

Lemma nth_pad (x : list R) k t : nth t (x ++ repeat 0%R k) 0%R = nth t x 0%R.
Proof.
  destruct (Nat.lt_ge_cases t (length x)).
  - now rewrite app_nth1.
  - rewrite app_nth2, nth_repeat by assumption. now rewrite nth_overflow.
Qed.

Lemma old_rfft_eq n x : old_rfft n x = new_rfft n x.
Proof.
  unfold old_rfft, new_rfft, torch_rfft. rewrite map_pair_back. destruct n as [n|]; [|reflexivity].
  destruct (Nat.ltb_spec (length x) n).
  - rewrite app_length, repeat_length. replace (length x + (n - length x)) with n by lia.
    apply rfft_ext. intros. apply nth_pad.
  - destruct (Nat.ltb_spec n (length x)).
    + rewrite (slice_to x n 0%R), length_tab. replace (Nat.min n (length x)) with n by lia.
      apply rfft_ext. intros t Ht. now rewrite nth_tab.
    + replace (length x) with n by lia. reflexivity.
Qed.

Lemma pairs_len2 (Z : list C) :
  forallb (fun r => Nat.eqb (length r) 2) (map (fun z : C => [fst z; snd z]) Z) = true.
Proof. induction Z; [reflexivity|exact IHZ]. Qed.

Lemma irfft_ext n Z Z' :
  (forall k, k <= n / 2 -> nth k Z (RtoC 0) = nth k Z' (RtoC 0)) -> irfft n Z = irfft n Z'.
Proof.
  intros H. unfold irfft. apply tab_ext. intros t _. f_equal. f_equal.
  - now rewrite (H 0) by lia.
  - apply Rsum_ext. intros k Hk. cbv zeta. now rewrite (H (S k)) by lia.
Qed.

Lemma torch_irfft_pairs Z n :
  length Z = n / 2 + 1 -> torch_irfft (map (fun z : C => [fst z; snd z]) Z) n = Ok (irfft n Z).
Proof.
  intros H. unfold torch_irfft. rewrite pairs_len2, map_length, H, Nat.eqb_refl, map_pair_back.
  reflexivity.
Qed.

(** With enough frequencies the wrapper is the modern function. *)
Lemma old_irfft_eq n Z : n / 2 + 1 <= length Z -> old_irfft (Some n) Z = Ok (new_irfft (Some n) Z).
Proof.
  intros H. unfold old_irfft, new_irfft. rewrite map_length.
  destruct (Nat.ltb_spec (n / 2 + 1) (length Z)).
  - rewrite (slice_to _ _ [0%R; 0%R]), map_length, Nat.min_l by lia.
    replace (tab _ _) with (map (fun z : C => [fst z; snd z]) (tab (n / 2 + 1) (fun i => nth i Z (RtoC 0)))).
    + rewrite torch_irfft_pairs by apply length_tab. f_equal. apply irfft_ext. intros k Hk.
      rewrite nth_tab by lia. reflexivity.
    + unfold tab. rewrite map_map. apply map_ext_in. intros i _.
      change [0%R; 0%R] with ((fun z : C => [fst z; snd z]) (RtoC 0)). now rewrite map_nth.
  - destruct (Nat.ltb_spec (length Z) (n / 2 + 1)); [lia|].
    apply torch_irfft_pairs. lia.
Qed.

(** With too few, the padding is on the wrong axis and the call fails, while the modern
    function pads with zeros. *)
Lemma old_irfft_short n Z : length Z < n / 2 + 1 -> old_irfft (Some n) Z = Raise RuntimeError.
Proof.
  intros H. unfold old_irfft. rewrite map_length.
  destruct (Nat.ltb_spec (n / 2 + 1) (length Z)); [lia|].
  destruct (Nat.ltb_spec (length Z) (n / 2 + 1)); [|lia].
  unfold torch_irfft. rewrite !map_length. rewrite (proj2 (Nat.eqb_neq (length Z) (n / 2 + 1))) by lia.
  now rewrite andb_false_r.
Qed.

Lemma old_irfft_none Z :
  (length Z = 2 -> old_irfft None Z = Ok (new_irfft None Z)) /\
  (length Z <> 2 -> old_irfft None Z = Raise RuntimeError).
Proof.
  split; intros H; unfold old_irfft, new_irfft.
  - rewrite H. now rewrite torch_irfft_pairs.
  - unfold torch_irfft. rewrite map_length.
    rewrite (proj2 (Nat.eqb_neq (length Z) _)) by (cbn; lia). now rewrite andb_false_r.
Qed.

Lemma einsum_complex_eq n a b : einsum_complex n a b = Csum n (fun i => Cmult (a i) (b i)).
Proof.
  unfold einsum_complex. set (S := Csum _ _).
  rewrite (surjective_pairing S). unfold S.
  change (fst (Csum n ?f)) with (Re (Csum n f)). change (snd (Csum n ?f)) with (Im (Csum n f)).
  rewrite Re_Csum, Im_Csum. f_equal.
  - unfold Rminus. rewrite <- Rsum_opp, <- Rsum_plus. apply Rsum_ext. intros i _. unfold Re. cbn. ring.
  - rewrite <- Rsum_plus. apply Rsum_ext. intros i _. unfold Im. cbn. ring.
Qed.

(** ** The callers *)
Lemma old_stats_acf_eq nf L x : old_stats_acf nf L x = Ok (stats_acf nf L x).
Proof.
  unfold old_stats_acf. rewrite old_rfft_eq, old_irfft_eq; [reflexivity|].
  rewrite map_length. unfold new_rfft. rewrite length_rfft. lia.
Qed.

Lemma old_stats_xcorr_eq nf L x y : old_stats_xcorr nf L x y = Ok (stats_xcorr nf L x y).
Proof.
  unfold old_stats_xcorr. rewrite !old_rfft_eq, old_irfft_eq; [reflexivity|].
  rewrite length_zip_with. unfold new_rfft. rewrite !length_rfft. lia.
Qed.

Lemma old_stats2_acf_eq nf L x y : old_stats2_acf nf L x y = Ok (stats2_acf nf L x y).
Proof.
  unfold old_stats2_acf. rewrite !old_rfft_eq, old_irfft_eq; [reflexivity|].
  rewrite length_zip_with. unfold new_rfft. rewrite !length_rfft. lia.
Qed.

Lemma old_circulant_precond_eq col :
  match old_circulant_precond col, circulant_precond Torch col with
  | Ok f, Ok g => forall v, f v = Ok (g v)
  | Raise e, Raise e' => e = e'
  | _, _ => False
  end.
Proof.
  unfold old_circulant_precond, circulant_precond.
  destruct (sym_precond_col Torch col) as [c|e]; cbn [bind]; [|reflexivity].
  intros v. rewrite !old_rfft_eq, old_irfft_eq; [reflexivity|].
  rewrite length_zip_with, map_length. unfold new_rfft. rewrite !length_rfft. lia.
Qed.

Lemma old_toeplitz_op_eq col v : col <> [] -> old_toeplitz_op col v = Ok (toeplitz_op Torch col v).
Proof.
  intros H. unfold old_toeplitz_op, toeplitz_op. rewrite !old_rfft_eq, old_irfft_eq; [reflexivity|].
  rewrite length_zip_with. unfold new_rfft. rewrite !length_rfft.
  rewrite !app_length, repeat_length. unfold flip. rewrite rev_length.
  rewrite (slice_from col 1 0%R : pyslice (Some 1%Z) None 1 col = _), length_tab.
  destruct col as [|a c]; [congruence|]. cbn [length].
  match goal with |- _ <= Nat.min ?a ?b => replace b with a; [lia|] end.
  f_equal. f_equal. lia.
Qed.

Lemma old_block_apply_eq nf n nc Cf v r :
  old_block_apply nf n nc Cf v r = Ok (block_apply nf n nc Cf v r).
Proof.
  unfold old_block_apply, block_apply. rewrite old_irfft_eq by (rewrite length_tab; lia).
  unfold new_irfft. f_equal. f_equal. apply tab_ext. intros k _. apply Csum_ext. intros c _.
  now rewrite old_rfft_eq.
Qed.
