(** * The integer options with any value

    [Metrics.v] takes filter_length >= 1 and use_cg_iter >= 0 as natural numbers.  Here they are integers, and
    filter_length may be None, as the annotations Optional[int] allow.  At least one sample. *)
From Coq Require Import Reals.
From Coquelicot Require Import Complex.
From Verif Require Import Prelude ExtReal Slice Sums Fft Helpers Linalg Cgd Metrics.
Local Open Scope nat_scope.

Record zopts := ZOpts {
  z_length : option Z;
  z_iter : option Z;
  z_mean : bool;
  z_clamp : option R;
  z_load : option R
}.

(** [for epoch in range(n_iter)], numpy/cgd.py:335: no iteration when n_iter < 0. *)
Definition iterations (o : zopts) : option nat := option_map Z.to_nat (z_iter o).

(** The options of [Metrics.v] with L taps. *)
Definition at_length (o : zopts) (L : nat) : opts := Opts L (iterations o) (z_mean o) (z_clamp o) (z_load o).

(** [filter_length == 1], numpy/metrics.py:238, 501, torch/metrics.py:234, 497. *)
Definition one_tap (o : zopts) : bool := match z_length o with Some l => (l =? 1)%Z | None => false end.
(** [if length is None: length = x.shape[-1]], numpy/metrics.py:113-114, 163-164. *)
Definition taps (o : zopts) (len : nat) : Z := match z_length o with Some l => l | None => Z.of_nat len end.

(** The results of compute_stats, numpy/metrics.py:116-134, torch/metrics.py:111-130 ([length] any integer). *)
Definition acf_z (nf : nat) (l : Z) (x : list R) : list R :=
  pyslice None (Some l) 1 (irfft nf (map (fun z => RtoC (fst z ^ 2 + snd z ^ 2)) (rfft nf x))).
Definition xcorr_z (nf : nat) (l : Z) (x y : list R) : list R :=
  pyslice None (Some l) 1 (irfft nf (zip_with (fun a b => Cmult (Cconj a) b) (rfft nf x) (rfft nf y))).
(** The acf of compute_stats_2, numpy/metrics.py:174-175. *)
Definition acf2_z (nf : nat) (l : Z) (x1 x2 : list R) : list R :=
  let a := irfft nf (zip_with (fun a b => Cmult a (Cconj b)) (rfft nf x1) (rfft nf x2)) in
  pyslice None (Some l) 1 a ++ pyslice (Some (- l)%Z) None 1 a.

(** The number of entries of a[:stop] and of a[start:] for a of n entries. *)
Definition upto (n : nat) (stop : option Z) : nat := length (pyslice None stop 1 (repeat 0%R n)).
Definition from (n : nat) (start : Z) : nat := length (pyslice (Some start) None 1 (repeat 0%R n)).

(** toeplitz of an empty vector is 0 x 1 (numpy/linalg.py:26, 37), which solve refuses; with the conjugate
    gradient a transform of 0 points raises (numpy/cgd.py:87; torch: arange(1, 0), torch/cgd.py:37). *)
Definition empty_system (b : backend) (o : zopts) : exn :=
  match z_iter o, b with
  | None, NumPy => LinAlgError
  | None, Torch => RuntimeError
  | Some _, _ => shape_exn b
  end.

(** sdr_loss(pairwise=True), numpy/metrics.py:238-282, torch/metrics.py:234-278.  [acf[..., 0] += load_diag]
    raises IndexError when there is no lag. *)
Definition sdr_coh_z (b : backend) (o : zopts) (ref est : arr) : res (list (list xr)) :=
  if one_tap o then sdr_coh b (at_length o 1) ref est
  else
    let refs := prep_arr (z_mean o) ref in
    let ests := prep_arr (z_mean o) est in
    let nf := n_fft (a_len ref) (a_len est) in
    let l := taps o (a_len ref) in
    if Nat.eqb (upto nf (Some l)) 0
    then Raise (match z_load o with Some _ => IndexError | None => empty_system b o end)
    else
      mapM (fun x : chan => match x with
        | None => Ok (map (fun _ => NaN) ests)
        | Some v => coh_row b (iterations o) (add_load (z_load o) (acf_z nf l v)) (xcorr_z nf l v) ests
        end) refs.
Definition pairwise_sdr_loss_z (b : backend) (o : zopts) (est ref : arr) : res (list (list xr)) :=
  do m <- sdr_coh_z b o ref est; Ok (map (map (coherence_to_neg_sdr (z_clamp o))) m).
(** sdr, numpy/metrics.py:369-447, torch/metrics.py:365-443. *)
Definition sdr_z (b : backend) (sp : scipy_lsa) (o : zopts) (cs : bool) (ref est : arr) : res (list xr * list nat) :=
  do neg <- pairwise_sdr_loss_z b o est ref;
  do r <- solve_permutation b sp (n_chan ref) (n_chan est) (mat_of neg) [];
  let '(v, _, perm) := r in
  Ok (if cs then v else map xneg v, perm).

(** The SAR coherences ([sar_row] of Metrics.v with the lags given). *)
Definition sar_row_with (b : backend) (cg : option nat) (ld : option R) (pairwise : bool)
    (acf2 : list R -> list R -> list R) (acf : list R -> list R) (xcorr : list R -> list R -> list R)
    (refs ests : list chan) : res (list xr) :=
  if existsb tainted refs then Ok (map (fun _ => NaN) ests)
  else
    let k := length refs in
    let rf := fun c => opt0 (nth c refs None) in
    let acfs := fun c d => (if Nat.eqb c d then add_load ld else fun l => l) (acf2 (rf c) (rf d)) in
    let top := length (acfs 0 0) in
    let xc := fun y => flatten k (length (xcorr (rf 0) y)) (fun c => xcorr (rf c) y) in
    match cg with
    | None =>
        do M <- block_toeplitz b top k k acfs;
        let n := top / 2 * k in
        do X <- solve_cols n (length ests) M (fun l d => nth l (xc (opt0 (nth d ests None))) 0%R);
        Ok (tab (length ests) (fun d =>
          match nth d ests None with
          | None => NaN
          | Some y => Fin (dot_nth n (xc y) (fun l => X l d))
          end))
    | Some it =>
        do _ <- block_precond b k acfs;
        mapM (fun y : chan => match y with
          | None => Ok NaN
          | Some v =>
              do x0 <- (if pairwise then
                  do cols <- mapM (fun c => toeplitz_cg b (add_load ld (acf (rf c))) (xcorr (rf c) v) it) (seq 0 k);
                  Ok (Some (flatten k (top / 2) (fun c => nth c cols [])))
                else Ok None);
              do s <- block_toeplitz_cg b top k acfs (xc v) x0 it;
              Ok (Fin (dot_nth (top / 2 * k) (xc v) (fun l => nth l s 0%R)))
          end) ests
    end.

(** acf_sdr = acf_sdr[..., :filter_length], numpy/metrics.py:534, torch/metrics.py:529: the option itself, None included. *)
Definition acf_sdr_z (o : zopts) (nf : nat) (l : Z) (x : list R) : list R :=
  pyslice None (z_length o) 1 (add_load (z_load o) (acf2_z nf l x x)).

(** The sizes: load_diag needs a first lag (numpy/metrics.py:529), then solve and the assertion of
    conjugate_gradient need as many lags in acf_sdr as in xcorr. *)
Definition sizes_z (b : backend) (o : zopts) (nf : nat) (l : Z) : res unit :=
  let top := upto nf (Some l) + from nf (- l) in
  let n_acf := upto top (z_length o) in
  if (match z_load o with Some _ => Nat.eqb top 0 | None => false end) then Raise IndexError
  else if Nat.eqb n_acf 0 then Raise (empty_system b o)
  else if Nat.eqb n_acf (upto nf (Some l)) then Ok tt
  else Raise (match z_iter o with None => shape_exn b | Some _ => AssertionError end).

(** square_cosine_metrics, numpy/metrics.py:450-574, torch/metrics.py:446-571. *)
Definition sq_cos_z (b : backend) (o : zopts) (ref est : arr) : res (list (list xr) * list xr) :=
  if one_tap o then sq_cos b (at_length o 1) ref est
  else
    let refs := prep_arr (z_mean o) ref in
    let ests := prep_arr (z_mean o) est in
    let nf := n_fft (a_len ref) (a_len est) in
    let l := taps o (a_len ref) in
    do _ <- sizes_z b o nf l;
    do sdrm <- mapM (fun x : chan => match x with
      | None => Ok (map (fun _ => NaN) ests)
      | Some v => coh_row b (iterations o) (acf_sdr_z o nf l v) (xcorr_z nf l v) ests
      end) refs;
    do sar <- sar_row_with b (iterations o) (z_load o) true (acf2_z nf l) (acf_z nf l) (xcorr_z nf l) refs ests;
    Ok (sdrm, sar).
Definition sq_cos_diag_z (b : backend) (o : zopts) (ref est : arr) : res (list xr * list xr) :=
  if one_tap o then sq_cos_diag b (at_length o 1) ref est
  else
    let refs := prep_arr (z_mean o) ref in
    let ests := prep_arr (z_mean o) est in
    let nf := n_fft (a_len ref) (a_len est) in
    let l := taps o (a_len ref) in
    do _ <- sizes_z b o nf l;
    do sdrv <- mapM (fun i =>
      match nth i refs None with
      | None => Ok NaN
      | Some v =>
        do row <- coh_row b (iterations o) (acf_sdr_z o nf l v) (xcorr_z nf l v) [nth i ests None];
        Ok (nth 0 row NaN)
      end) (seq 0 (length refs));
    do sar <- sar_row_with b (iterations o) (z_load o) false (acf2_z nf l) (acf_z nf l) (xcorr_z nf l) refs ests;
    Ok (sdrv, sar).

(** bss_eval_sources, numpy/metrics.py:593-677, torch/metrics.py:590-674. *)
Definition bss_z (b : backend) (sp : scipy_lsa) (o : zopts) (ref est : arr)
  : res (list xr * list xr * list xr * list nat) :=
  do c <- sq_cos_z b o ref est;
  let '(nsdr, nsir, nsar) := bss_mats (at_length o 1) c in
  do r <- solve_permutation b sp (n_chan ref) (n_chan est) nsir [nsdr; nsar];
  let '(sir, args, perm) := r in
  Ok (map xneg (nth 0 args []), map xneg sir, map xneg (nth 1 args []), perm).
Definition bss_noperm_z (b : backend) (o : zopts) (ref est : arr) : res (list xr * list xr * list xr) :=
  if Nat.eqb (n_chan ref) (n_chan est) then
    do c <- sq_cos_diag_z b o ref est;
    let '(sdrv, sar) := c in
    let m := tab (n_chan ref) (fun i => base_metrics (at_length o 1) (nth i sdrv NaN) (nth i sar NaN)) in
    Ok (map (fun t => xneg (fst (fst t))) m, map (fun t => xneg (snd (fst t))) m,
        map (fun t => xneg (snd t)) m)
  else Raise AssertionError.
