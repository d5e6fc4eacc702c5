(** * Shapes of the outputs for any batch axes and any library version *)
From Verif Require Import Prelude Helpers Linalg Metrics Shapes.
Local Open Scope nat_scope.

Lemma bc1_refl a : bc1 a a = Some a.
Proof. unfold bc1. rewrite Nat.eqb_refl. reflexivity. Qed.

Lemma bc1_absorb a b c :
  bc1 a b = Some c -> bc1 a c = Some c /\ bc1 b c = Some c /\ bc1 c a = Some c /\ bc1 c b = Some c.
Proof.
  unfold bc1.
  destruct (Nat.eqb_spec a b); [intros [= <-]; subst; rewrite Nat.eqb_refl; auto|].
  destruct (Nat.eqb_spec a 1); [intros [= <-]; subst; rewrite !Nat.eqb_refl|
    destruct (Nat.eqb_spec b 1); [intros [= <-]; subst; rewrite !Nat.eqb_refl|discriminate]].
  - destruct (Nat.eqb_spec 1 b); [congruence|].
    destruct (Nat.eqb_spec b 1); [congruence|]. auto.
  - destruct (Nat.eqb_spec 1 a); [congruence|].
    destruct (Nat.eqb_spec a 1); [congruence|]. auto.
Qed.

Lemma bc_refl s : bc s s = Some s.
Proof. induction s as [|a s IH]; [reflexivity|]. cbn. rewrite bc1_refl, IH. reflexivity. Qed.

Lemma bc_nil_r s : bc s [] = Some s.
Proof. destruct s; reflexivity. Qed.

Lemma bc_absorb s t u :
  bc s t = Some u -> bc s u = Some u /\ bc t u = Some u /\ bc u s = Some u /\ bc u t = Some u.
Proof.
  revert t u. induction s as [|a s IH]; intros t u.
  - cbn. intros [= <-]. rewrite bc_refl, bc_nil_r. auto.
  - destruct t as [|b t].
    + rewrite bc_nil_r. intros [= <-]. rewrite !bc_refl, bc_nil_r. auto.
    + cbn. destruct (bc1 a b) as [c|] eqn:E; [|discriminate].
      destruct (bc s t) as [v|] eqn:F; [|discriminate]. intros [= <-].
      destruct (bc1_absorb _ _ _ E) as (h1 & h2 & h3 & h4).
      destruct (IH _ _ F) as (i1 & i2 & i3 & i4).
      cbn. rewrite h1, h2, h3, h4, i1, i2, i3, i4. auto.
Qed.

Lemma bc_length s t u : bc s t = Some u -> length u = Nat.max (length s) (length t).
Proof.
  revert t u. induction s as [|a s IH]; intros t u.
  - cbn. intros [= <-]. reflexivity.
  - destruct t as [|b t].
    + cbn [bc]. intros [= <-]. cbn. lia.
    + cbn. destruct (bc1 a b) as [c|] eqn:E; [|discriminate].
      destruct (bc s t) as [v|] eqn:F; [|discriminate]. intros [= <-]. cbn.
      rewrite (IH _ _ F). reflexivity.
Qed.

Lemma shape_eqb_refl s : shape_eqb s s = true.
Proof. unfold shape_eqb. destruct list_eq_dec; congruence. Qed.

Lemma shape_eqb_length s t : length s <> length t -> shape_eqb s t = false.
Proof. intros H. unfold shape_eqb. destruct list_eq_dec; [subst; congruence|reflexivity]. Qed.

Lemma shape_eqb_neq s t : s <> t -> shape_eqb s t = false.
Proof. intros H. unfold shape_eqb. destruct list_eq_dec; [congruence|reflexivity]. Qed.

(** ** The solvers *)

(** A right-hand side with as many axes as the matrix, or more, is a matrix. *)
Lemma vector_rhs_no l a b : 2 <= length b -> length a <= length b -> vector_rhs l a b = false.
Proof.
  intros H2 H. destruct l; cbn.
  - apply Nat.eqb_neq. lia.
  - apply Nat.eqb_neq. lia.
  - apply Nat.eqb_neq. lia.
  - rewrite (proj2 (Nat.eqb_neq _ _)) by lia. cbn.
    apply shape_eqb_length. destruct a; cbn in *; lia.
Qed.

Lemma solve_mat_ok l n k ba bb e :
  bc ba bb = Some e -> solve_mat l (n :: n :: ba) (k :: n :: bb) = Ok (k :: n :: e).
Proof. intros H. cbn. rewrite !Nat.eqb_refl. cbn. rewrite H. reflexivity. Qed.

Lemma sh_solve_mat l n k ba bb e :
  bc ba bb = Some e -> length ba <= length bb ->
  sh_solve l (n :: n :: ba) (k :: n :: bb) = Ok (k :: n :: e).
Proof.
  intros H Hl. unfold sh_solve. rewrite vector_rhs_no by (cbn; lia). apply solve_mat_ok, H.
Qed.

Lemma ein_lc_same l k n b : ein_lc l (k :: n :: b) (k :: n :: b) = Ok (k :: b).
Proof. cbn. rewrite !bc1_refl, bc_refl. reflexivity. Qed.

Lemma ein_l_same l n b : ein_l l (n :: b) (n :: b) = Ok b.
Proof. cbn. rewrite !bc1_refl, bc_refl. reflexivity. Qed.

Lemma ein_scale_same l k n e : ein_scale l (k :: e) (k :: n :: e) = Ok (k :: n :: e).
Proof.
  unfold ein_scale, bcr. cbn. rewrite bc1_refl, bc_refl. unfold bc1.
  destruct (Nat.eqb_spec 1 n); cbn; [subst; reflexivity|]. reflexivity.
Qed.

Lemma bcr_same l s : bcr l s s = Ok s.
Proof. unfold bcr. rewrite bc_refl. reflexivity. Qed.

Lemma sh_cg_loop_ok l app pre m k n e :
  app (k :: n :: e) = Ok (k :: n :: e) -> pre (k :: n :: e) = Ok (k :: n :: e) ->
  sh_cg_loop l app pre m (k :: n :: e) (k :: n :: e) (k :: n :: e) (k :: e) = Ok (k :: n :: e).
Proof.
  intros Ha Hp. induction m as [|m IH]; [reflexivity|].
  cbn [sh_cg_loop]. rewrite Ha. cbn [bind].
  repeat (first [rewrite ein_lc_same|rewrite bcr_same|rewrite ein_scale_same|rewrite Hp];
          cbn [bind]).
  exact IH.
Qed.

Lemma sh_cg_ok l A' a1 app pre m k e x0 :
  length A' = length e + 1 ->
  app (k :: a1 :: e) = Ok (k :: a1 :: e) -> pre (k :: a1 :: e) = Ok (k :: a1 :: e) ->
  x0 = None \/ x0 = Some (k :: a1 :: e) ->
  sh_cg l (a1 :: A') app pre m (k :: a1 :: e) x0 = Ok (k :: a1 :: e).
Proof.
  intros Hl Ha Hp Hx. unfold sh_cg.
  rewrite (proj2 (Nat.eqb_neq (length (a1 :: A')) (length (k :: a1 :: e) + 1))) by (cbn; lia).
  cbv beta iota zeta.
  rewrite (proj2 (Nat.eqb_eq (length (a1 :: A')) (length (k :: a1 :: e)))) by (cbn; lia).
  rewrite Nat.eqb_refl. cbn [andb].
  destruct Hx as [-> | ->]; rewrite Ha; cbn [bind];
  rewrite bcr_same; cbn [bind]; rewrite Hp; cbn [bind]; rewrite ein_lc_same; cbn [bind];
  rewrite sh_cg_loop_ok by assumption; reflexivity.
Qed.

(** With one axis less the right-hand side is taken as one column. *)
Lemma sh_cg_vec_ok l A' a1 app pre m e :
  length A' = length e + 1 ->
  app (1 :: a1 :: e) = Ok (1 :: a1 :: e) -> pre (1 :: a1 :: e) = Ok (1 :: a1 :: e) ->
  sh_cg l (a1 :: A') app pre m (a1 :: e) None = Ok (a1 :: e).
Proof.
  intros Hl Ha Hp. unfold sh_cg.
  rewrite (proj2 (Nat.eqb_eq (length (a1 :: A')) (length (a1 :: e) + 1))) by (cbn; lia).
  cbv beta iota zeta.
  rewrite (proj2 (Nat.eqb_eq (length (a1 :: A')) (length (1 :: a1 :: e)))) by (cbn; lia).
  rewrite Nat.eqb_refl. cbn [andb].
  rewrite Ha. cbn [bind]. rewrite bcr_same. cbn [bind]. rewrite Hp. cbn [bind].
  rewrite ein_lc_same. cbn [bind]. rewrite sh_cg_loop_ok by assumption. reflexivity.
Qed.

Lemma sh_toep_apply_ok l n ba k e :
  bc e ba = Some e -> length e = length ba ->
  sh_toep_apply l (n :: ba) (k :: n :: e) = Ok (k :: n :: e).
Proof.
  intros H Hl. cbn -[Nat.eqb]. rewrite (proj2 (Nat.eqb_eq _ _)) by (cbn; lia).
  rewrite Nat.eqb_refl, H. reflexivity.
Qed.

Lemma sh_toeplitz_cg_mat l n ba k e m :
  bc e ba = Some e -> length e = length ba ->
  sh_toeplitz_cg l (n :: ba) (k :: n :: e) m = Ok (k :: n :: e).
Proof.
  intros H Hl. unfold sh_toeplitz_cg. cbn [sh_toeplitz].
  apply sh_cg_ok; [cbn; lia| | |now left]; now apply sh_toep_apply_ok.
Qed.

Lemma sh_toeplitz_cg_vec l n ba e m :
  bc e ba = Some e -> length e = length ba ->
  sh_toeplitz_cg l (n :: ba) (n :: e) m = Ok (n :: e).
Proof.
  intros H Hl. unfold sh_toeplitz_cg. cbn [sh_toeplitz].
  apply sh_cg_vec_ok; [cbn; lia| |]; now apply sh_toep_apply_ok.
Qed.

(** More axes in the right-hand side than in the operator: AssertionError. *)
Lemma sh_cg_more l A app pre m b x0 :
  length A < length b -> sh_cg l A app pre m b x0 = Raise AssertionError.
Proof.
  intros H. unfold sh_cg. rewrite (proj2 (Nat.eqb_neq (length A) (length b + 1))) by lia.
  cbv beta iota zeta.
  destruct A as [|a A]; [reflexivity|]. destruct b as [|b1 [|b2 b]]; try reflexivity.
  rewrite (proj2 (Nat.eqb_neq (length (a :: A)) _)) by lia. reflexivity.
Qed.

Lemma sh_block_apply_ok l c n ba k e :
  bc ba e = Some e -> sh_block_apply l (c :: c :: n + n :: ba) (k :: n * c :: e) = Ok (k :: n * c :: e).
Proof.
  intros H. unfold sh_block_apply. replace ((n + n) / 2) with n
    by (replace (n + n) with (n * 2) by lia; rewrite Nat.div_mul by lia; reflexivity).
  rewrite (proj2 (Nat.eqb_eq _ _)) by lia. cbn -[Nat.mul]. rewrite bc1_refl. cbn -[Nat.mul].
  rewrite H. reflexivity.
Qed.

Lemma half_double n : (n + n) / 2 = n.
Proof. replace (n + n) with (n * 2) by lia. now rewrite Nat.div_mul by lia. Qed.

Lemma sh_block_cg_ok l c n ba k e m x0 :
  n <> 1 -> bc ba e = Some e -> length e = length ba ->
  x0 = None \/ x0 = Some (k :: n * c :: e) ->
  sh_block_cg l (c :: c :: n + n :: ba) (k :: n * c :: e) m x0 = Ok (k :: n * c :: e).
Proof.
  intros Hn H Hl Hx. unfold sh_block_cg. rewrite half_double.
  assert (E : sh_cg l (c * n :: c * n :: ba) (sh_block_apply l (c :: c :: n + n :: ba))
    (sh_block_apply l (c :: c :: n + n :: ba)) m (k :: n * c :: e) x0 = Ok (k :: n * c :: e)).
  { rewrite (Nat.mul_comm c n). apply sh_cg_ok; [cbn; lia| | |exact Hx]; now apply sh_block_apply_ok. }
  destruct l; try exact E; destruct n as [|[|n]]; try exact E; congruence.
Qed.

(** ** sdr_loss and sdr *)

(** All pairs, direct solver: any broadcastable batch axes, any version. *)
Lemma pair_direct_shape l L T C bx T' D by' e :
  L <> 1 -> bc bx by' = Some e ->
  sh_sdr_loss l true L None (T' :: D :: by') (T :: C :: bx) = Ok (D :: C :: e).
Proof.
  intros HL H. unfold sh_sdr_loss. rewrite (proj2 (Nat.eqb_neq _ _) HL).
  unfold sh_stats. cbn [last_axis hd set_last ein_cnd]. rewrite bc1_refl, H.
  cbn [of_opt bind sh_toeplitz]. set (n := Nat.min L _).
  destruct (bc_absorb _ _ _ H) as (h & _).
  rewrite (sh_solve_mat _ _ _ _ _ (C :: e)).
  - cbn [bind]. apply ein_lc_same.
  - cbn. now rewrite bc1_refl, h.
  - cbn. rewrite (bc_length _ _ _ H). lia.
Qed.

Lemma pair_cg_shape l L m T C bx T' D by' e :
  L <> 1 -> bc bx by' = Some e -> length by' <= length bx ->
  sh_sdr_loss l true L (Some m) (T' :: D :: by') (T :: C :: bx) = Ok (D :: C :: e).
Proof.
  intros HL H Hlen. unfold sh_sdr_loss. rewrite (proj2 (Nat.eqb_neq _ _) HL).
  unfold sh_stats. cbn [last_axis hd set_last ein_cnd]. rewrite bc1_refl, H.
  cbn [of_opt bind]. set (n := Nat.min L _).
  destruct (bc_absorb _ _ _ H) as (_ & _ & h & _).
  rewrite sh_toeplitz_cg_mat.
  - cbn [bind]. apply ein_lc_same.
  - cbn. now rewrite bc1_refl, h.
  - cbn. rewrite (bc_length _ _ _ H). lia.
Qed.

Lemma pair_cg_more l L m T C bx T' D by' e :
  L <> 1 -> bc bx by' = Some e -> length bx < length by' ->
  sh_sdr_loss l true L (Some m) (T' :: D :: by') (T :: C :: bx) = Raise AssertionError.
Proof.
  intros HL H Hlen. unfold sh_sdr_loss. rewrite (proj2 (Nat.eqb_neq _ _) HL).
  unfold sh_stats. cbn [last_axis hd set_last ein_cnd]. rewrite bc1_refl, H.
  cbn [of_opt bind]. unfold sh_toeplitz_cg. rewrite sh_cg_more; [reflexivity|].
  cbn. rewrite (bc_length _ _ _ H). lia.
Qed.

Lemma pair_len1_shape l cg T C bx T' D by' t e :
  bc1 T T' = Some t -> bc bx by' = Some e ->
  sh_sdr_loss l true 1 cg (T' :: D :: by') (T :: C :: bx) = Ok (D :: C :: e).
Proof.
  intros Ht H. unfold sh_sdr_loss, sh_len1. cbn [Nat.eqb orb bind ein_cd]. rewrite Ht, H. reflexivity.
Qed.

Lemma pair_mismatch l L cg T C bx T' D by' :
  bc bx by' = None ->
  sh_sdr_loss l true L cg (T' :: D :: by') (T :: C :: bx) = Raise (lib_exn l).
Proof.
  intros H. unfold sh_sdr_loss. destruct (Nat.eqb_spec L 1).
  - unfold sh_len1. cbn [orb bind ein_cd]. rewrite H. destruct (bc1 T T'); reflexivity.
  - unfold sh_stats. cbn [last_axis hd set_last ein_cnd]. rewrite bc1_refl, H. reflexivity.
Qed.

(** Matched pairs. *)
Lemma n_stats_ge l L T T' C bx D by' e :
  bc (C :: bx) (D :: by') = Some e ->
  sh_stats l false L (T :: C :: bx) (T' :: D :: by') =
  Ok (Nat.min L (n_fft T T') :: C :: bx, Nat.min L (n_fft T T') :: e).
Proof.
  intros H. unfold sh_stats. cbn [last_axis hd set_last].
  change (bc (?a :: ?s) (?b :: ?t)) with
    (match bc1 a b, bc s t with Some c, Some u => Some (c :: u) | _, _ => None end) at 1.
  rewrite bc1_refl, H. reflexivity.
Qed.

Lemma vec_old l n a e :
  l = Np1 \/ l = Th1 -> bc a e = Some e -> length e = length a ->
  sh_solve l (n :: n :: a) (n :: e) = Ok (n :: e).
Proof.
  intros Hl H Hlen. unfold sh_solve.
  assert (E : vector_rhs l (n :: n :: a) (n :: e) = true).
  { destruct Hl as [-> | ->]; cbn; apply Nat.eqb_eq; cbn; lia. }
  rewrite E. cbn. rewrite !Nat.eqb_refl. cbn. rewrite H. reflexivity.
Qed.

Lemma vec_th2 n a : sh_solve Th2 (n :: n :: a) (n :: a) = Ok (n :: a).
Proof.
  unfold sh_solve. cbn [vector_rhs tl]. rewrite shape_eqb_refl, orb_true_r.
  cbn. rewrite !Nat.eqb_refl. cbn. rewrite bc_refl. reflexivity.
Qed.

(** In the matrix reading, the rows of the right-hand side are its second axis. *)
Lemma mat_mismatch l n ba k r bb : r <> n -> solve_mat l (n :: n :: ba) (k :: r :: bb) = Raise (lib_exn l).
Proof.
  intros H. cbn. rewrite Nat.eqb_refl, (proj2 (Nat.eqb_neq n r)) by congruence. reflexivity.
Qed.

Lemma match_old_shape l L T C bx T' D by' e :
  l = Np1 \/ l = Th1 -> L <> 1 -> bc (C :: bx) (D :: by') = Some e -> length by' <= length bx ->
  sh_sdr_loss l false L None (T' :: D :: by') (T :: C :: bx) = Ok e.
Proof.
  intros Hl HL H Hlen. unfold sh_sdr_loss. rewrite (proj2 (Nat.eqb_neq _ _) HL).
  rewrite (n_stats_ge _ _ _ _ _ _ _ _ _ H). cbn [bind sh_toeplitz].
  destruct (bc_absorb _ _ _ H) as (h & _). pose proof (bc_length _ _ _ H) as HLn. cbn in HLn.
  rewrite vec_old; [cbn [bind]; apply ein_l_same|exact Hl|exact h|cbn; lia].
Qed.

Lemma match_th2_shape L T C bx T' D by' :
  L <> 1 -> bc (C :: bx) (D :: by') = Some (C :: bx) ->
  sh_sdr_loss Th2 false L None (T' :: D :: by') (T :: C :: bx) = Ok (C :: bx).
Proof.
  intros HL H. unfold sh_sdr_loss. rewrite (proj2 (Nat.eqb_neq _ _) HL).
  rewrite (n_stats_ge _ _ _ _ _ _ _ _ _ H). cbn [bind sh_toeplitz].
  rewrite vec_th2. cbn [bind]. apply ein_l_same.
Qed.

Lemma match_cg_shape l L m T C bx T' D by' e :
  L <> 1 -> bc (C :: bx) (D :: by') = Some e -> length by' <= length bx ->
  sh_sdr_loss l false L (Some m) (T' :: D :: by') (T :: C :: bx) = Ok e.
Proof.
  intros HL H Hlen. unfold sh_sdr_loss. rewrite (proj2 (Nat.eqb_neq _ _) HL).
  rewrite (n_stats_ge _ _ _ _ _ _ _ _ _ H). cbn [bind].
  destruct (bc_absorb _ _ _ H) as (_ & _ & h & _). pose proof (bc_length _ _ _ H) as HLn. cbn in HLn.
  rewrite sh_toeplitz_cg_vec; [cbn [bind]; apply ein_l_same|exact h|cbn; lia].
Qed.

Lemma match_len1_shape l cg T C bx T' D by' t e :
  bc1 T T' = Some t -> bc (C :: bx) (D :: by') = Some e ->
  sh_sdr_loss l false 1 cg (T' :: D :: by') (T :: C :: bx) = Ok e.
Proof.
  intros Ht H. unfold sh_sdr_loss, sh_len1. cbn [Nat.eqb orb bind ein_l]. rewrite Ht. cbn [of_opt bind]. rewrite H. reflexivity.
Qed.

(** One-dimensional signals. *)
Lemma match_1d l L cg T T' t :
  (L = 1 -> bc1 T T' = Some t) -> sh_sdr_loss l false L cg [T'] [T] = Ok [].
Proof.
  intros Ht. unfold sh_sdr_loss. destruct (Nat.eqb_spec L 1) as [E|E].
  - unfold sh_len1. cbn [orb bind ein_l]. rewrite (Ht E). reflexivity.
  - unfold sh_stats. cbn [last_axis hd set_last bc]. rewrite bc1_refl. cbn [of_opt bind set_last].
    set (n := Nat.min L _). destruct cg as [m|].
    + change (sh_toeplitz_cg l [n] [n] m) with (sh_toeplitz_cg l (n :: []) (n :: []) m).
      rewrite sh_toeplitz_cg_vec by reflexivity. cbn [bind]. apply ein_l_same.
    + assert (E1 : sh_solve l (sh_toeplitz [n]) [n] = Ok [n]).
      { unfold sh_solve. replace (vector_rhs l (sh_toeplitz [n]) [n]) with true by (destruct l; reflexivity).
        cbn. rewrite !Nat.eqb_refl. reflexivity. }
      rewrite E1. cbn [bind]. apply ein_l_same.
Qed.

(** Where the right-hand side is read as a matrix by mistake. *)
Lemma match_mat_raises l L T C bx T' D by' e1 e :
  L <> 1 -> bc (C :: bx) (D :: by') = Some (e1 :: e) ->
  vector_rhs l (sh_toeplitz (Nat.min L (n_fft T T') :: C :: bx)) (Nat.min L (n_fft T T') :: e1 :: e) = false ->
  e1 <> Nat.min L (n_fft T T') ->
  sh_sdr_loss l false L None (T' :: D :: by') (T :: C :: bx) = Raise (lib_exn l).
Proof.
  intros HL H Hv Hne. unfold sh_sdr_loss. rewrite (proj2 (Nat.eqb_neq _ _) HL).
  rewrite (n_stats_ge _ _ _ _ _ _ _ _ _ H). cbn [bind].
  unfold sh_solve. rewrite Hv. cbn [sh_toeplitz]. rewrite mat_mismatch by exact Hne. reflexivity.
Qed.

Lemma match_np2_raises L T C b T' :
  L <> 1 -> C <> Nat.min L (n_fft T T') ->
  sh_sdr_loss Np2 false L None (T' :: C :: b) (T :: C :: b) = Raise ValueError.
Proof.
  intros HL Hne. apply (match_mat_raises Np2) with (e1 := C) (e := b); try assumption.
  - apply bc_refl.
  - reflexivity.
Qed.

(** The estimates have more batch axes than the references. *)
Lemma match_more_raises l L T C T' B :
  L <> 1 -> C <> Nat.min L (n_fft T T') ->
  sh_sdr_loss l false L None [T'; C; B] [T; C] = Raise (lib_exn l).
Proof.
  intros HL Hne. apply match_mat_raises with (e1 := C) (e := [B]); try assumption.
  - cbn. now rewrite bc1_refl.
  - destruct l; cbn [sh_toeplitz vector_rhs length tl]; try reflexivity.
    cbn. apply shape_eqb_length. cbn. lia.
Qed.

(** ** bss_eval_sources *)

Lemma stats2_shape l L T C bx T' D by' e :
  bc bx by' = Some e ->
  sh_stats2 l L (T :: C :: bx) (T' :: D :: by') =
  Ok (C :: C :: Nat.min L (n_fft T T') + Nat.min L (n_fft T T') :: bx,
      D :: C :: Nat.min L (n_fft T T') :: e).
Proof.
  intros H. unfold sh_stats2. cbn [last_axis hd set_last ein_ncd].
  rewrite !bc1_refl, bc_refl, H. reflexivity.
Qed.

Lemma bc_sar l D C e :
  of_opt l (bc (D :: C :: e) (D :: 1 :: e)) = Ok (D :: C :: e).
Proof.
  cbn. rewrite bc1_refl, bc_refl. unfold bc1.
  destruct (Nat.eqb_spec C 1); [subst; reflexivity|].
  rewrite Nat.eqb_refl. reflexivity.
Qed.

Lemma sh_block_toeplitz_ok l c n b :
  n <> 1 -> sh_block_toeplitz l (c :: c :: n + n :: b) = Ok (n * c :: n * c :: b).
Proof.
  intros H. unfold sh_block_toeplitz. rewrite half_double.
  rewrite (proj2 (Nat.eqb_neq _ _) H). reflexivity.
Qed.

(** One lemma for the four ways of solving: the two solutions only have to have the
    right shapes. *)
Lemma cosine_pair_shape l L cg T C bx T' D by' e :
  2 <= L <= n_fft T T' -> bc bx by' = Some e ->
  cg = None \/ length by' <= length bx ->
  sh_cosine l true L cg (T :: C :: bx) (T' :: D :: by') = Ok (D :: C :: e, D :: C :: e).
Proof.
  intros HL H Hcg. unfold sh_cosine. rewrite (proj2 (Nat.eqb_neq L 1)) by lia.
  rewrite (stats2_shape _ _ _ _ _ _ _ _ _ H). cbn [bind].
  replace (Nat.min L (n_fft T T')) with L by lia.
  replace (Nat.min L (L + L)) with L by lia. rewrite Nat.min_id.
  cbn [sh_swap sh_flat].
  destruct (bc_absorb _ _ _ H) as (h1 & _ & h3 & _). pose proof (bc_length _ _ _ H) as HLn.
  destruct cg as [m|].
  - destruct Hcg as [[=]|Hlen].
    rewrite sh_toeplitz_cg_mat by (cbn; rewrite ?bc1_refl, ?h3; lia || reflexivity).
    cbn [bind]. rewrite ein_lc_same. cbn [bind sh_swap sh_flat].
    rewrite sh_block_cg_ok; [|lia|exact h1|lia|now right].
    cbn [bind]. rewrite ein_lc_same. cbn [bind]. rewrite bc_sar. reflexivity.
  - rewrite sh_block_toeplitz_ok by lia. cbn [bind sh_toeplitz].
    rewrite (sh_solve_mat _ _ _ _ _ (C :: e)) by (cbn; rewrite ?bc1_refl, ?h1; lia || reflexivity).
    cbn [bind]. rewrite ein_lc_same. cbn [bind].
    rewrite (sh_solve_mat _ _ _ _ _ e) by (exact h1 || lia).
    cbn [bind]. rewrite ein_lc_same. cbn [bind]. rewrite bc_sar. reflexivity.
Qed.

Lemma cosine_match_shape l L cg T C bx T' by' e :
  2 <= L <= n_fft T T' -> bc bx by' = Some e ->
  (cg = None -> (l = Np1 \/ l = Th1 \/ l = Th2 /\ e = bx)) -> length by' <= length bx ->
  sh_cosine l false L cg (T :: C :: bx) (T' :: C :: by') = Ok (C :: e, C :: e).
Proof.
  intros HL H Hcg Hlen. unfold sh_cosine. rewrite (proj2 (Nat.eqb_neq L 1)) by lia.
  rewrite (stats2_shape _ _ _ _ _ _ _ _ _ H). cbn [bind].
  replace (Nat.min L (n_fft T T')) with L by lia.
  replace (Nat.min L (L + L)) with L by lia. rewrite Nat.min_id.
  assert (Hd : sh_diag l C (C :: C :: L :: e) = Ok (L :: C :: e)).
  { unfold sh_diag. rewrite Nat.min_id, Nat.leb_refl. now destruct l. }
  rewrite Hd. cbn [bind sh_flat].
  destruct (bc_absorb _ _ _ H) as (h1 & _ & h3 & _). pose proof (bc_length _ _ _ H) as HLn.
  destruct cg as [m|].
  - rewrite sh_toeplitz_cg_vec by (cbn; rewrite ?bc1_refl, ?h3; lia || reflexivity).
    cbn [bind]. rewrite ein_l_same. cbn [bind].
    rewrite sh_block_cg_ok; [|lia|exact h1|lia|now left].
    cbn [bind]. rewrite ein_lc_same. reflexivity.
  - rewrite sh_block_toeplitz_ok by lia. cbn [bind sh_toeplitz].
    assert (E : sh_solve l (L :: L :: C :: bx) (L :: C :: e) = Ok (L :: C :: e)).
    { destruct (Hcg eq_refl) as [h | [h | [h1' ->]]].
      - apply vec_old; [now left|cbn; now rewrite bc1_refl, h1|cbn; lia].
      - apply vec_old; [now right|cbn; now rewrite bc1_refl, h1|cbn; lia].
      - subst l. apply vec_th2. }
    rewrite E. cbn [bind]. rewrite ein_l_same. cbn [bind].
    rewrite (sh_solve_mat _ _ _ _ _ e) by (exact h1 || lia).
    cbn [bind]. rewrite ein_lc_same. reflexivity.
Qed.

Lemma len1_shape l pairwise T C bx T' D by' t e :
  bc1 T T' = Some t -> bc bx by' = Some e -> (pairwise = false -> C = D) ->
  sh_len1 l pairwise true (T :: C :: bx) (T' :: D :: by') =
  if pairwise then Ok (D :: C :: e, Some (D :: C :: e)) else Ok (C :: e, Some (C :: e)).
Proof.
  intros Ht H Hp. unfold sh_len1. rewrite orb_true_r. cbn [ein_cd]. rewrite Ht, H, bc1_refl, bc_refl.
  cbn [of_opt bind].
  destruct (bc_absorb _ _ _ H) as (h1 & _). pose proof (bc_length _ _ _ H) as HLn.
  rewrite (sh_solve_mat _ _ _ _ _ e) by (exact h1 || lia).
  destruct pairwise; cbn [bind].
  - rewrite ein_lc_same. cbn [bind]. rewrite bc_sar. reflexivity.
  - cbn [ein_l]. rewrite Ht. cbn [of_opt bind]. rewrite (Hp eq_refl). cbn [bc]. rewrite bc1_refl, H.
    cbn [of_opt bind]. rewrite ein_lc_same. reflexivity.
Qed.

Lemma bss_perm_shape l L cg T C bx T' D by' e t :
  (L = 1 /\ bc1 T T' = Some t) \/ 2 <= L <= n_fft T T' -> bc bx by' = Some e ->
  L = 1 \/ cg = None \/ length by' <= length bx ->
  sh_bss l true L cg (T :: C :: bx) (T' :: D :: by') =
  Ok (Nat.min C D :: e, Nat.min C D :: e, Nat.min C D :: e).
Proof.
  intros HL H Hcg. unfold sh_bss. cbn [negb andb].
  assert (E : sh_cosine l true L cg (T :: C :: bx) (T' :: D :: by') = Ok (D :: C :: e, D :: C :: e)).
  { destruct HL as [[-> Ht]|HL].
    - unfold sh_cosine. cbn [Nat.eqb]. rewrite (len1_shape _ _ _ _ _ _ _ _ _ _ Ht H) by discriminate.
      reflexivity.
    - destruct Hcg as [->|Hcg]; [lia|]. now apply cosine_pair_shape. }
  rewrite E. cbn [bind]. rewrite bc_refl. reflexivity.
Qed.

Lemma bss_match_shape l L cg T C bx T' by' e t :
  (L = 1 /\ bc1 T T' = Some t) \/ 2 <= L <= n_fft T T' -> bc bx by' = Some e ->
  L = 1 \/ ((cg = None -> (l = Np1 \/ l = Th1 \/ l = Th2 /\ e = bx)) /\ length by' <= length bx) ->
  sh_bss l false L cg (T :: C :: bx) (T' :: C :: by') = Ok (C :: e, C :: e, C :: e).
Proof.
  intros HL H Hcg. unfold sh_bss. rewrite Nat.eqb_refl. cbn [negb andb].
  assert (E : sh_cosine l false L cg (T :: C :: bx) (T' :: C :: by') = Ok (C :: e, C :: e)).
  { destruct HL as [[-> Ht]|HL].
    - unfold sh_cosine. cbn [Nat.eqb]. rewrite (len1_shape _ _ _ _ _ _ _ _ _ _ Ht H) by reflexivity.
      reflexivity.
    - destruct Hcg as [->|[Hcg Hlen]]; [lia|]. now apply cosine_match_shape. }
  rewrite E. cbn [bind]. rewrite bc_refl. reflexivity.
Qed.

Lemma bss_np2_raises L T C b T' :
  2 <= L <= n_fft T T' -> C <> L ->
  sh_bss Np2 false L None (T :: C :: b) (T' :: C :: b) = Raise ValueError.
Proof.
  intros HL Hne. unfold sh_bss. rewrite Nat.eqb_refl. cbn [negb andb].
  unfold sh_cosine. rewrite (proj2 (Nat.eqb_neq L 1)) by lia.
  rewrite (stats2_shape _ _ _ _ _ _ _ _ _ (bc_refl b)). cbn [bind].
  replace (Nat.min L (n_fft T T')) with L by lia.
  replace (Nat.min L (L + L)) with L by lia. rewrite Nat.min_id.
  cbn [sh_diag]. rewrite Nat.min_id, Nat.leb_refl. cbn [bind sh_toeplitz].
  unfold sh_solve. cbn [vector_rhs length]. cbn [Nat.eqb]. rewrite mat_mismatch by exact Hne. reflexivity.
Qed.

Lemma bss_cg_more l L m T C bx T' D by' e :
  2 <= L -> bc bx by' = Some e -> length bx < length by' ->
  sh_bss l true L (Some m) (T :: C :: bx) (T' :: D :: by') = Raise AssertionError.
Proof.
  intros HL H Hlen. unfold sh_bss. cbn [negb andb].
  unfold sh_cosine. rewrite (proj2 (Nat.eqb_neq L 1)) by lia.
  rewrite (stats2_shape _ _ _ _ _ _ _ _ _ H). cbn [bind sh_swap].
  unfold sh_toeplitz_cg. rewrite sh_cg_more; [reflexivity|].
  cbn. rewrite (bc_length _ _ _ H). lia.
Qed.

(** ** sdr *)
Lemma sdr_shape l L cg T C bx T' D by' e t :
  (L = 1 -> bc1 T T' = Some t) -> bc bx by' = Some e ->
  L = 1 \/ cg = None \/ length by' <= length bx ->
  sh_sdr l L cg (T :: C :: bx) (T' :: D :: by') = Ok (Nat.min C D :: e).
Proof.
  intros Ht H Hcg. unfold sh_sdr.
  assert (E : sh_sdr_loss l true L cg (T' :: D :: by') (T :: C :: bx) = Ok (D :: C :: e)).
  { destruct (Nat.eq_dec L 1) as [->|HL].
    - now apply (pair_len1_shape _ _ _ _ _ _ _ _ t); [apply Ht|].
    - destruct Hcg as [->|[->|Hlen]]; [congruence|now apply pair_direct_shape|].
      destruct cg as [m|]; [now apply pair_cg_shape|now apply pair_direct_shape]. }
  rewrite E. reflexivity.
Qed.

(** ** Broadcasting, stated axis by axis *)

(** [u] is the common shape of [s] and [t]: missing leading axes count as 1, and on every
    axis both lengths are that of [u] or 1, one of them being that of [u]. *)
Definition broadcast_to (s t u : shape) : Prop :=
  length u = Nat.max (length s) (length t) /\
  forall i, i < length u ->
    (nth i s 1 = nth i u 1 \/ nth i s 1 = 1) /\ (nth i t 1 = nth i u 1 \/ nth i t 1 = 1) /\
    (nth i s 1 = nth i u 1 \/ nth i t 1 = nth i u 1).

Lemma bc1_iff a b c :
  bc1 a b = Some c <-> (a = c \/ a = 1) /\ (b = c \/ b = 1) /\ (a = c \/ b = c).
Proof.
  unfold bc1.
  destruct (Nat.eqb_spec a b); [subst; split; [intros [= <-]; auto|intros (h1 & h2 & h3); f_equal; lia]|].
  destruct (Nat.eqb_spec a 1); [subst; split; [intros [= <-]; auto|intros (h1 & h2 & h3); f_equal; lia]|].
  destruct (Nat.eqb_spec b 1); [subst; split; [intros [= <-]; auto|intros (h1 & h2 & h3); f_equal; lia]|].
  split; [discriminate|lia].
Qed.

Lemma nth_nil_1 i : nth i (@nil nat) 1 = 1.
Proof. now destruct i. Qed.

Lemma bc_iff s t u : bc s t = Some u <-> broadcast_to s t u.
Proof.
  unfold broadcast_to. revert t u. induction s as [|a s IH]; intros t u.
  - cbn [bc length Nat.max]. split.
    + intros [= <-]. split; [reflexivity|]. intros i _. rewrite nth_nil_1. auto.
    + intros [Hl H]. f_equal. apply nth_ext with (d := 1) (d' := 1); [congruence|].
      intros i Hi. destruct (H i ltac:(lia)) as (_ & h2 & h3). rewrite nth_nil_1 in *. lia.
  - destruct t as [|b t].
    + rewrite bc_nil_r. split.
      * intros [= <-]. split; [cbn; lia|]. intros i _. rewrite nth_nil_1. auto.
      * intros [Hl H]. cbn [length Nat.max] in Hl. f_equal.
        apply nth_ext with (d := 1) (d' := 1); [cbn; lia|].
        intros i Hi. destruct (H i ltac:(cbn in *; lia)) as (h1 & h2 & h3).
        rewrite nth_nil_1 in *. lia.
    + change (bc (a :: s) (b :: t)) with
        (match bc1 a b, bc s t with Some c, Some v => Some (c :: v) | _, _ => None end).
      split.
      * destruct (bc1 a b) as [c|] eqn:E; [|discriminate].
        destruct (bc s t) as [v|] eqn:F; [|discriminate]. intros [= <-].
        apply IH in F. destruct F as [F1 F2]. apply bc1_iff in E.
        split; [cbn; lia|]. intros [|i] Hi; cbn [nth]; [exact E|].
        apply F2. cbn in Hi. lia.
      * intros [Hl H]. destruct u as [|c v]; [cbn in Hl; lia|].
        rewrite (proj2 (bc1_iff a b c) (H 0 ltac:(cbn; lia))).
        rewrite (proj2 (IH t v)); [reflexivity|].
        split; [cbn in Hl; lia|]. intros i Hi. apply (H (S i)). cbn. lia.
Qed.

Lemma bc_none_iff s t : bc s t = None <-> ~ exists u, broadcast_to s t u.
Proof.
  split.
  - intros H [u Hu]. apply bc_iff in Hu. congruence.
  - intros H. destruct (bc s t) as [u|] eqn:E; [|reflexivity].
    exfalso. apply H. exists u. now apply bc_iff.
Qed.

Lemma broadcast_same s : broadcast_to s s s.
Proof. apply bc_iff, bc_refl. Qed.

(** ** Summary lemmas, as used by the properties *)

Lemma equal_batch_loss l L cg b C D T :
  l <> Np2 ->
  sh_sdr_loss l true L cg (T :: D :: b) (T :: C :: b) = Ok (D :: C :: b) /\
  sh_sdr_loss l false L cg (T :: C :: b) (T :: C :: b) = Ok (C :: b).
Proof.
  intros Hl. split.
  - destruct (Nat.eq_dec L 1) as [->|HL].
    + apply (pair_len1_shape _ _ _ _ _ _ _ _ T); [apply bc1_refl|apply bc_refl].
    + destruct cg as [m|].
      * apply pair_cg_shape; [exact HL|apply bc_refl|lia].
      * apply pair_direct_shape; [exact HL|apply bc_refl].
  - destruct (Nat.eq_dec L 1) as [->|HL].
    + apply (match_len1_shape _ _ _ _ _ _ _ _ T); [apply bc1_refl|apply bc_refl].
    + destruct cg as [m|]; [apply match_cg_shape; [exact HL|apply bc_refl|lia]|].
      destruct l; [|congruence| |].
      * apply match_old_shape; [auto|exact HL|apply bc_refl|lia].
      * apply match_old_shape; [auto|exact HL|apply bc_refl|lia].
      * apply match_th2_shape; [exact HL|apply bc_refl].
Qed.

Lemma equal_batch_sdr l L cg b C D T :
  sh_sdr l L cg (T :: C :: b) (T :: D :: b) = Ok (Nat.min C D :: b).
Proof.
  apply (sdr_shape _ _ _ _ _ _ _ _ _ _ T); [intros _; apply bc1_refl|apply bc_refl|right; right; lia].
Qed.

Lemma nfft_ge T : 1 <= T -> T <= n_fft T T.
Proof.
  intros H. unfold n_fft. rewrite Nat.max_id.
  destruct (Nat.eq_dec T 1) as [->|]; [cbn; lia|].
  pose proof (proj2 (Nat.log2_up_spec (T + T - 1) ltac:(lia))). lia.
Qed.

Lemma equal_batch_bss l L cg b C D T :
  1 <= L <= T ->
  sh_bss l true L cg (T :: C :: b) (T :: D :: b)
    = Ok (Nat.min C D :: b, Nat.min C D :: b, Nat.min C D :: b) /\
  (l <> Np2 -> sh_bss l false L cg (T :: C :: b) (T :: C :: b) = Ok (C :: b, C :: b, C :: b)).
Proof.
  intros HL. pose proof (nfft_ge T ltac:(lia)).
  assert (H1 : (L = 1 /\ bc1 T T = Some T) \/ 2 <= L <= n_fft T T).
  { destruct (Nat.eq_dec L 1) as [->|]; [left; split; [reflexivity|apply bc1_refl]|right; lia]. }
  split.
  - apply (bss_perm_shape _ _ _ _ _ _ _ _ _ _ T H1); [apply bc_refl|right; right; lia].
  - intros Hl. apply (bss_match_shape _ _ _ _ _ _ _ _ _ T H1); [apply bc_refl|right; split; [|lia]].
    intros _. destruct l; auto. congruence.
Qed.

(** numpy 2 *)
Lemma np2_summary L b C T :
  2 <= L <= T -> C <> L ->
  sh_sdr_loss Np2 false L None (T :: C :: b) (T :: C :: b) = Raise ValueError /\
  sh_bss Np2 false L None (T :: C :: b) (T :: C :: b) = Raise ValueError /\
  (forall m, sh_sdr_loss Np2 false L (Some m) (T :: C :: b) (T :: C :: b) = Ok (C :: b)) /\
  (forall m, sh_bss Np2 false L (Some m) (T :: C :: b) (T :: C :: b) = Ok (C :: b, C :: b, C :: b)).
Proof.
  intros HL HC. pose proof (nfft_ge T ltac:(lia)). repeat split.
  - apply match_np2_raises; lia.
  - apply bss_np2_raises; lia.
  - intros m. apply match_cg_shape; [lia|apply bc_refl|lia].
  - intros m. apply (bss_match_shape _ _ _ _ _ _ _ _ _ T); [right; lia|apply bc_refl|].
    right. split; [discriminate|lia].
Qed.

(** ... and with as many channels as taps, unbatched, a matrix instead of a vector. *)
Lemma np2_square L T :
  2 <= L <= T -> sh_sdr_loss Np2 false L None [T; L] [T; L] = Ok [L; L].
Proof.
  intros HL. pose proof (nfft_ge T ltac:(lia)).
  unfold sh_sdr_loss. rewrite (proj2 (Nat.eqb_neq L 1)) by lia.
  change [T; L] with (T :: L :: []).
  rewrite (n_stats_ge _ _ _ _ _ _ _ _ _ (bc_refl [L])). cbn [bind sh_toeplitz].
  replace (Nat.min L (n_fft T T)) with L by lia.
  unfold sh_solve. cbn [vector_rhs length Nat.eqb].
  rewrite (solve_mat_ok _ _ _ [L] [] [L] eq_refl). cbn [bind ein_l]. rewrite bc1_refl. cbn [of_opt bind bc].
  rewrite bc1_refl. reflexivity.
Qed.

Lemma cg_vs_direct l L m C D bx by' T e :
  L <> 1 -> broadcast_to bx by' e ->
  sh_sdr l L None (T :: C :: bx) (T :: D :: by') = Ok (Nat.min C D :: e) /\
  (length by' <= length bx ->
   sh_sdr l L (Some m) (T :: C :: bx) (T :: D :: by') = Ok (Nat.min C D :: e)) /\
  (length bx < length by' ->
   sh_sdr l L (Some m) (T :: C :: bx) (T :: D :: by') = Raise AssertionError).
Proof.
  intros HL H. apply bc_iff in H. repeat split.
  - apply (sdr_shape _ _ _ _ _ _ _ _ _ _ T); [congruence|exact H|auto].
  - intros Hlen. apply (sdr_shape _ _ _ _ _ _ _ _ _ _ T); [congruence|exact H|auto].
  - intros Hlen. unfold sh_sdr. rewrite (pair_cg_more _ _ _ _ _ _ _ _ _ _ HL H Hlen). reflexivity.
Qed.

Lemma incompatible_batch l L cg C D bx by' T :
  ~ (exists e, broadcast_to bx by' e) ->
  sh_sdr l L cg (T :: C :: bx) (T :: D :: by') = Raise (lib_exn l).
Proof.
  intros H. apply bc_none_iff in H. unfold sh_sdr. rewrite pair_mismatch by exact H. reflexivity.
Qed.

Lemma sdr_shape_is_min : exists C D T,
  sh_sdr Np1 512 None [T; C] [T; D] = Ok [C] /\ C <> D.
Proof. exists 2, 3, 1000. split; [apply equal_batch_sdr|lia]. Qed.
