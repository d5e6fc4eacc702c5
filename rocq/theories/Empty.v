(** * Recordings without samples

    [Metrics.v] assumes at least one sample.  Here the argument of math.log2 is computed as in the code, so that
    arrays of length 0 are covered too.  A transform of an empty axis to n >= 1 points pads it with zeros (all
    libraries), as [rfft] does. *)
From Coq Require Import Reals.
From Verif Require Import Prelude ExtReal Helpers Linalg Metrics.
Local Open Scope nat_scope.

(** n_fft = 2 ** math.ceil(math.log2(x.shape[-1] + max_len - 1)), numpy/metrics.py:116-117, 166-167,
    torch/metrics.py:111-112, 162-163: math.log2 raises ValueError for 0 and for negative numbers. *)
Definition fft_size (lx ly : nat) : res nat :=
  let m := (Z.of_nat lx + Z.of_nat (Nat.max lx ly) - 1)%Z in
  if (m <=? 0)%Z then Raise ValueError else Ok (2 ^ Nat.log2_up (Z.to_nat m)).

(** The call of compute_stats (compute_stats_2) comes first, after the normalisation, which raises for no
    array; numpy/metrics.py:250-259, 511-522.  The path with one tap does not use it. *)
Definition with_stats {A} (o : opts) (ref est : arr) (k : res A) : res A :=
  if Nat.eqb (filter_length o) 1 then k else do _ <- fft_size (a_len ref) (a_len est); k.

(** sdr_loss(pairwise=True), numpy/metrics.py:185-284, torch/metrics.py:181-280. *)
Definition pairwise_sdr_loss_any (b : backend) (o : opts) (est ref : arr) : res (list (list xr)) :=
  with_stats o ref est (pairwise_sdr_loss b o est ref).
(** sdr_loss(pairwise=False). *)
Definition sdr_loss_any (b : backend) (o : opts) (est ref : arr) : res (list xr) :=
  with_stats o ref est (sdr_loss b o est ref).
(** sdr, numpy/metrics.py:369-447, torch/metrics.py:365-443. *)
Definition sdr_any (b : backend) (sp : scipy_lsa) (o : opts) (cs : bool) (ref est : arr) : res (list xr * list nat) :=
  with_stats o ref est (sdr b sp o cs ref est).
(** bss_eval_sources, numpy/metrics.py:593-677, torch/metrics.py:590-674; the assertion on the numbers of
    channels (numpy/metrics.py:651-655) comes first. *)
Definition bss_any (b : backend) (sp : scipy_lsa) (o : opts) (ref est : arr)
  : res (list xr * list xr * list xr * list nat) :=
  with_stats o ref est (bss_eval_sources b sp o ref est).
Definition bss_noperm_any (b : backend) (o : opts) (ref est : arr) : res (list xr * list xr * list xr) :=
  if Nat.eqb (n_chan ref) (n_chan est) then with_stats o ref est (bss_eval_sources_noperm b o ref est)
  else Raise AssertionError.

(** k channels of m zeros. *)
Definition silent_arr (m k : nat) : arr := Arr m (repeat (repeat (Fin 0) m) k).
