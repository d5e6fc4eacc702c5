(** * Facts about the API layer: import, dispatch, wrappers, data types *)
From Coq Require Import Reals.
From Verif Require Import Prelude ExtReal Helpers Linalg Metrics Api.
Local Open Scope nat_scope.

Definition torch_installed (e : env) : Prop := e_torch e <> None.
(** The torch backend can be used. *)
Definition torch_usable (e : env) : Prop :=
  e_torch e = Some true \/ (e_torch e = Some false /\ e_torch_complex e = true).

(** ** Import *)
Ltac dest_env e := destruct e as [[] [] [[]|] [] [] []].

Lemma import_ok_iff e : is_ok (import_package e) <->
  e_numpy e = true /\ e_scipy e = true /\ (torch_installed e -> e_packaging e = true).
Proof.
  unfold is_ok, torch_installed. split.
  - intros [a H]. dest_env e; cbn in H |- *; try discriminate H; repeat split; congruence.
  - dest_env e; cbn; intros (H1 & H2 & H3); try discriminate; try (now eexists);
      exfalso; assert (false = true) as X by (apply H3; discriminate); discriminate X.
Qed.

Lemma import_no_packaging e : e_numpy e = true -> torch_installed e -> e_packaging e = false ->
  import_package e = Raise TypeError.
Proof.
  unfold torch_installed. dest_env e; cbn; intros H1 H2 H3; congruence.
Qed.

Lemma import_error_else e : (torch_installed e -> e_packaging e = true) ->
  (e_numpy e = false \/ e_scipy e = false) -> import_package e = Raise ImportError.
Proof.
  unfold torch_installed. dest_env e; cbn; intros H1 [H2|H2]; try discriminate; try reflexivity;
    exfalso; assert (false = true) as X by (apply H1; discriminate); discriminate X.
Qed.

Lemma import_numpy_only e : e_numpy e = true -> e_scipy e = true -> e_torch e = None ->
  import_package e = Ok (Pkg false dummy_attr).
Proof. dest_env e; cbn; congruence. Qed.

Lemma import_has_torch e p : import_package e = Ok p ->
  (has_torch p = true <-> torch_usable e).
Proof.
  unfold torch_usable. dest_env e; cbn; intros H; try discriminate; injection H as <-; cbn;
    split; intros K; try discriminate; try reflexivity; auto;
    destruct K as [K|[K1 K2]]; discriminate.
Qed.

(** ** Dispatch *)
(** The first positional argument in the documentation of each function. *)
Definition first_arg (f : fn) (ref est : argkind) : argkind :=
  match f with
  | F_bss_eval_sources | F_sdr | F_si_bss_eval_sources | F_si_sdr => ref
  | F_sdr_loss | F_sdr_pit_loss | F_si_sdr_loss | F_si_sdr_pit_loss => est
  end.
Definition needs_torch (f : fn) : Prop :=
  f <> F_bss_eval_sources /\ f <> F_sdr /\ f <> F_sdr_loss.

Lemma run_torch e f ref est : is_ok (import_package e) -> torch_usable e ->
  run e f ref est = Ok (match first_arg f ref est with KTensor => Torch | KOther => NumPy end).
Proof.
  intros [p Hp] Hu. unfold run. rewrite Hp. cbn.
  assert (p = Pkg true (fun _ => Function)) as ->.
  { unfold torch_usable in Hu. dest_env e; cbn in Hp, Hu; try discriminate; try congruence;
      destruct Hu as [K|[K1 K2]]; discriminate. }
  unfold dispatch, first_arg; cbn. destruct f, est, ref; reflexivity.
Qed.

Lemma run_torch_iff e f ref est : is_ok (import_package e) -> torch_usable e ->
  (run e f ref est = Ok Torch <-> first_arg f ref est = KTensor) /\
  (run e f ref est = Ok NumPy <-> first_arg f ref est = KOther).
Proof.
  intros H1 H2. rewrite (run_torch e f ref est H1 H2).
  destruct (first_arg f ref est); split; split; congruence.
Qed.

Lemma run_no_torch e f ref est : is_ok (import_package e) -> ~ torch_usable e ->
  (needs_torch f -> run e f ref est = Raise AttributeError) /\
  (~ needs_torch f -> run e f ref est = Ok NumPy).
Proof.
  intros [p Hp] Hu. unfold run. rewrite Hp. cbn.
  assert (p = Pkg false dummy_attr) as ->.
  { unfold torch_usable in Hu. dest_env e; cbn in Hp, Hu; try discriminate; try congruence; tauto. }
  unfold needs_torch. destruct f; cbn; split; intros H; try reflexivity; exfalso;
    try (apply H; repeat split; discriminate); destruct H as (H1 & H2 & H3); congruence.
Qed.

Lemma old_torch_silent e ref est :
  e_numpy e = true -> e_scipy e = true -> e_packaging e = true ->
  e_torch e = Some false -> e_torch_complex e = false -> run e F_sdr ref est = Ok NumPy.
Proof. dest_env e; cbn; congruence. Qed.

(** ** Wrappers *)
Lemma si_sdr_loss_len1 b zm cd est ref cg ld :
  si_sdr_loss b zm cd est ref = sdr_loss b (Opts 1 cg zm cd ld) est ref.
Proof.
  unfold si_sdr_loss, sdr_loss, sdr_coh_diag. cbn [filter_length zero_mean clamp_db use_cg_iter Nat.eqb].
  f_equal. destruct (bc_len b (a_len ref) (a_len est)); cbn; [|reflexivity].
  unfold bc_chan; cbn. destruct b, cg; reflexivity.
Qed.
Lemma pairwise_si_len1 b zm cd est ref cg ld :
  pairwise_si_sdr_loss b zm cd est ref = pairwise_sdr_loss b (Opts 1 cg zm cd ld) est ref.
Proof. reflexivity. Qed.
Lemma si_sdr_len1 b sp zm cd cs ref est cg ld :
  si_sdr b sp zm cd cs ref est = sdr b sp (Opts 1 cg zm cd ld) cs ref est.
Proof. reflexivity. Qed.
Lemma si_pit_len1 b sp zm cd est ref cg ld :
  si_sdr_pit_loss b sp zm cd est ref = sdr_pit_loss b sp (Opts 1 cg zm cd ld) est ref.
Proof. reflexivity. Qed.
Lemma si_bss_len1 b sp zm cd ld ref est cg :
  si_bss_eval_sources b sp zm cd ld ref est = bss_eval_sources b sp (Opts 1 cg zm cd ld) ref est.
Proof. reflexivity. Qed.
Lemma si_bss_noperm_len1 b zm cd ld ref est cg :
  si_bss_eval_sources_noperm b zm cd ld ref est
  = bss_eval_sources_noperm b (Opts 1 cg zm cd ld) ref est.
Proof. reflexivity. Qed.

(** ** Data types *)
Definition is_float (d : dt) : Prop := d = F32 \/ d = F64.

Lemma np_prep_float zm d : np_prep zm d = to_float d.
Proof. destruct zm, d; reflexivity. Qed.

Lemma np_sdr_default np2 o ref est : d_len1 o = true \/ d_cg o = None ->
  np_sdr_dtype np2 o ref est = match ref, est with F32, F32 => F32 | _, _ => F64 end.
Proof.
  intros H. unfold np_sdr_dtype. rewrite !np_prep_float.
  destruct (d_len1 o); [destruct ref, est; reflexivity|].
  destruct H as [H|H]; [discriminate|]. rewrite H. destruct ref, est; reflexivity.
Qed.

Lemma np_bss_default np2 pw o ref est :
  (d_len1 o = true /\ d_load o = false) \/ (d_len1 o = false /\ d_cg o = None) ->
  let d := match ref, est with F32, F32 => F32 | _, _ => F64 end in
  np_bss_dtype np2 pw o ref est = (d, d, d).
Proof.
  intros H d; subst d. unfold np_bss_dtype. rewrite !np_prep_float.
  destruct H as [[H1 H2]|[H1 H2]]; rewrite H1, H2; destruct ref, est; reflexivity.
Qed.

(** After one iteration the type is float64 and stays so. *)
Definition all64 (s : cgst) : Prop := g_x s = F64 /\ g_p s = F64.
Lemma promote_F64_r a : promote a F64 = F64.
Proof. destruct a; reflexivity. Qed.
Lemma np_precond_F64 np2 acf lhs : np_precond np2 acf lhs = F64.
Proof. unfold np_precond. rewrite promote_F64_r. destruct np2, acf, lhs; reflexivity. Qed.
Lemma cg_iter_p np2 A acf s : g_p s = F64 -> all64 (cg_iter A (np_precond np2 acf) s).
Proof.
  intros H. unfold all64, cg_iter; cbn. rewrite H, np_precond_F64, !promote_F64_r.
  split; reflexivity.
Qed.
Lemma np_tcg_F64 np2 acf xc x0 k : np_tcg np2 acf xc x0 (S k) = F64.
Proof.
  unfold np_tcg, np_cg. rewrite np_precond_F64.
  set (s0 := CgSt _ _ _ _). assert (g_p s0 = F64) as H by reflexivity. clearbody s0.
  assert (forall n s, g_p s = F64 -> all64 (Nat.iter (S n) (cg_iter (np_toeplitz_op np2 acf) (np_precond np2 acf)) s)) as X.
  { induction n; intros s Hs.
    - apply cg_iter_p, Hs.
    - apply cg_iter_p. apply (IHn s Hs). }
  apply (X k s0 H).
Qed.
Lemma np_tcg_0 np2 acf xc x0 : np_tcg np2 acf xc x0 0 = x0.
Proof. reflexivity. Qed.

Lemma np_sdr_cg np2 o k ref est : d_len1 o = false -> d_cg o = Some (S k) ->
  np_sdr_dtype np2 o ref est = F64.
Proof.
  intros H1 H2. unfold np_sdr_dtype. rewrite H1, H2, np_tcg_F64, promote_F64_r. reflexivity.
Qed.
Lemma np_bss_cg np2 pw o k ref est : d_len1 o = false -> d_cg o = Some (S k) ->
  np_bss_dtype np2 pw o ref est = (F64, F64, F64).
Proof.
  intros H1 H2. unfold np_bss_dtype. rewrite H1, H2, !np_tcg_F64, !promote_F64_r. reflexivity.
Qed.
Lemma np_si_bss_load np2 pw o : d_len1 o = true -> d_load o = true ->
  np_bss_dtype np2 pw o F32 F32 = (F32, F64, F64).
Proof.
  intros H1 H2. unfold np_bss_dtype. rewrite H1, H2. destruct (d_zm o); reflexivity.
Qed.

(** torch: the type of the inputs, as long as the default type is float32. *)
Lemma t_prep_float zm d : is_float d -> t_prep zm d = Ok d.
Proof. intros [-> | ->]; destruct zm; reflexivity. Qed.
Lemma t_tcg_keep block d k : is_float d -> t_tcg block F32 d d d k = Ok d.
Proof.
  intros Hd. unfold t_tcg, t_cg.
  assert (t_toeplitz_op block d d = Ok d) as E1 by (destruct Hd as [-> | ->], block; reflexivity).
  assert (t_precond block F32 d d = Ok d) as E2 by (destruct Hd as [-> | ->], block; reflexivity).
  assert (promote d d = d) as E3 by (destruct Hd as [-> | ->]; reflexivity).
  assert (t_same d d = Ok d) as E4 by (destruct Hd as [-> | ->]; reflexivity).
  assert (divide d d = d) as E5 by (destruct Hd as [-> | ->]; reflexivity).
  rewrite E1; cbn [bind]. rewrite E3, E2; cbn [bind]. rewrite E4; cbn [bind].
  assert (forall n, Nat.iter n (fun s => do s' <- s; t_cg_iter (t_toeplitz_op block d) (t_precond block F32 d) s')
            (Ok (CgSt d d d d)) = Ok (CgSt d d d d)) as X.
  { induction n; [reflexivity|]. cbn [Nat.iter nat_rect] in *. unfold Nat.iter in IHn. rewrite IHn. cbn [bind].
    unfold t_cg_iter. cbn [g_p g_x g_r g_rs]. rewrite E1; cbn [bind]. rewrite E4; cbn [bind].
    rewrite E5, !E3, E2; cbn [bind]. rewrite E4; cbn [bind]. rewrite E5, !E3. reflexivity. }
  rewrite X. reflexivity.
Qed.
Lemma t_csame_c d : is_float d -> t_csame (complex_of d) (complex_of d) = Ok (complex_of d).
Proof. intros [-> | ->]; reflexivity. Qed.
Lemma real_complex d : is_float d -> real_of (complex_of d) = d.
Proof. intros [-> | ->]; reflexivity. Qed.
Lemma t_same_f d : is_float d -> t_same d d = Ok d.
Proof. intros [-> | ->]; reflexivity. Qed.

Lemma t_sdr_keep pw o d : is_float d -> t_sdr_dtype F32 pw o d d = Ok d.
Proof.
  intros Hd. unfold t_sdr_dtype. rewrite (t_prep_float _ _ Hd). cbn [bind].
  destruct (d_len1 o); [now apply t_same_f|].
  assert ((if pw then t_csame (complex_of d) (complex_of d)
     else Ok (cpromote (complex_of d) (complex_of d))) = Ok (complex_of d)) as ->
   by (destruct Hd as [-> | ->], pw; reflexivity).
  cbn [bind]. rewrite (real_complex _ Hd).
  destruct (d_cg o) as [k|].
  - rewrite (t_tcg_keep _ _ _ Hd). cbn [bind]. now apply t_same_f.
  - rewrite (t_same_f _ Hd). cbn [bind]. now apply t_same_f.
Qed.
Lemma t_bss_keep pw o d : is_float d -> t_bss_dtype F32 pw o d d = Ok (d, d, d).
Proof.
  intros Hd. unfold t_bss_dtype. rewrite (t_prep_float _ _ Hd). cbn [bind].
  assert (divide d d = d) as E5 by (destruct Hd as [-> | ->]; reflexivity).
  destruct (d_len1 o).
  - rewrite (t_same_f _ Hd); cbn [bind].
    assert ((if d_load o then promote d F32 else d) = d) as -> by (destruct Hd as [-> | ->], (d_load o); reflexivity).
    rewrite (t_same_f _ Hd); cbn [bind]. rewrite (t_same_f _ Hd); cbn [bind]. now rewrite E5.
  - rewrite (t_csame_c _ Hd); cbn [bind]. rewrite (real_complex _ Hd).
    destruct (d_cg o) as [k|].
    + rewrite (t_tcg_keep _ _ _ Hd); cbn [bind]. rewrite (t_same_f _ Hd); cbn [bind].
      assert ((if pw then d else d) = d) as -> by (now destruct pw).
      rewrite (t_tcg_keep _ _ _ Hd); cbn [bind]. rewrite (t_same_f _ Hd); cbn [bind]. now rewrite E5.
    + rewrite (t_same_f _ Hd); cbn [bind]. rewrite (t_same_f _ Hd); cbn [bind]. now rewrite E5.
Qed.
Lemma t_int_raises dd pw o est : t_sdr_dtype dd pw o I est = Raise RuntimeError.
Proof. unfold t_sdr_dtype. destruct (d_zm o); reflexivity. Qed.
Lemma t_cg_default64 pw o k : d_len1 o = false -> d_cg o = Some k ->
  t_sdr_dtype F64 pw o F32 F32 = Raise RuntimeError.
Proof.
  intros H1 H2. unfold t_sdr_dtype. rewrite (t_prep_float _ F32); [|now left]. cbn [bind].
  rewrite H1, H2. destruct pw; reflexivity.
Qed.
