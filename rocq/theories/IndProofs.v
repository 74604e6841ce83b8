(** Lemmas about the induction factors on exact reals. *)
From Coquelicot Require Import Coquelicot.
From Coq Require Import Reals Bool Arith Lia Lra.
From Verif Require Import Prelim Num Bem IndSpec.
Open Scope R_scope.

(** ** Loss factor *)
Lemma acos_unit x : 0 < x < 1 -> 0 < acos x < PI / 2.
Proof.
  intros Hx. rewrite acos_atan by lra.
  assert (0 < sqrt (1 - x²) / x).
  { apply Rdiv_lt_0_compat; [|lra]. apply sqrt_lt_R0. unfold Rsqr. nra. }
  pose proof (atan_bound (sqrt (1 - x²) / x)). pose proof (atan_increasing _ _ H). rewrite atan_0 in *. lra.
Qed.

Lemma exp_neg_unit f : 0 < f -> 0 < exp (- f) < 1.
Proof. intros H. split; [apply exp_pos|]. rewrite <- exp_0. apply exp_increasing. lra. Qed.

Lemma prandtl_unit B d l phi : (1 <= B)%nat -> 0 < d -> 0 < l -> 0 < sin phi -> 0 < prandtl B d l phi < 1.
Proof.
  intros HB Hd Hl Hs. unfold prandtl.
  assert (HB' : 1 <= INR B) by (change 1 with (INR 1); apply le_INR; assumption).
  assert (Hf : 0 < INR B * d / (2 * l * sin phi)).
  { apply Rdiv_lt_0_compat; repeat apply Rmult_lt_0_compat; lra. }
  pose proof (acos_unit _ (exp_neg_unit _ Hf)) as [H1 H2]. pose proof PI_RGT_0 as HP.
  split.
  - apply Rmult_lt_0_compat; [apply Rdiv_lt_0_compat; lra|assumption].
  - apply Rmult_lt_reg_l with (PI / 2); [lra|]. rewrite <- Rmult_assoc.
    replace (PI / 2 * (2 / PI)) with 1 by (field; lra). lra.
Qed.

Lemma lossF_unit o B r Rhub Rtip phi : inside B r Rhub Rtip phi -> 0 < lossF o B r Rhub Rtip phi <= 1.
Proof.
  intros (HB & (H1 & H2) & H3 & H4). unfold lossF.
  assert (Hs : 0 < sin phi) by (apply sin_gt_0; lra).
  pose proof (prandtl_unit B (Rtip - r) r phi HB ltac:(lra) ltac:(lra) Hs).
  pose proof (prandtl_unit B (r - Rhub) Rhub phi HB ltac:(lra) ltac:(lra) Hs).
  destruct (tipLoss o), (hubLoss o); split; nra.
Qed.

(** ** The code's intermediate variables are the textbook ones *)
Lemma l_F_spec o B (r chord Rhub Rtip phi cl cd : R) : r <> 0 -> Rhub <> 0 -> sin phi <> 0 ->
  l_F (bem_locals o B r chord Rhub Rtip phi cl cd) = lossF o B r Rhub Rtip phi.
Proof.
  intros Hr Hh Hs. unfold bem_locals, lossF, prandtl, l_F, ofR, nmul, nadd, nsub, ndiv, nopp, nsin, ncos, nacos, nexp, R_arith.
  replace (INR B / 2 * (Rtip - r) / (r * sin phi)) with (INR B * (Rtip - r) / (2 * r * sin phi)) by (field; auto).
  replace (INR B / 2 * (r - Rhub) / (Rhub * sin phi)) with (INR B * (r - Rhub) / (2 * Rhub * sin phi)) by (field; auto).
  reflexivity.
Qed.

Lemma cn_spec o B (r chord Rhub Rtip phi cl cd : R) :
  l_cn (bem_locals o B r chord Rhub Rtip phi cl cd) = coef_n (useCd o) cl cd phi /\
  l_ct (bem_locals o B r chord Rhub Rtip phi cl cd) = coef_t (useCd o) cl cd phi.
Proof.
  unfold bem_locals, coef_n, coef_t, l_cn, l_ct, ofR, nmul, nadd, nsub, ndiv, nopp, nsin, ncos, nacos, nexp, R_arith.
  destruct (useCd o); simpl; split; ring.
Qed.

Lemma l_k_eq o B (r chord Rhub Rtip phi cl cd : R) :
  l_k (bem_locals o B r chord Rhub Rtip phi cl cd) =
  INR B / 2 / PI * chord / r * l_cn (bem_locals o B r chord Rhub Rtip phi cl cd) / 4
    / l_F (bem_locals o B r chord Rhub Rtip phi cl cd) / sin phi / sin phi /\
  l_kp (bem_locals o B r chord Rhub Rtip phi cl cd) =
  INR B / 2 / PI * chord / r * l_ct (bem_locals o B r chord Rhub Rtip phi cl cd) / 4
    / l_F (bem_locals o B r chord Rhub Rtip phi cl cd) / sin phi / cos phi.
Proof. split; reflexivity. Qed.

Lemma k_spec o B (r chord Rhub Rtip phi cl cd : R) : inside B r Rhub Rtip phi ->
  l_k (bem_locals o B r chord Rhub Rtip phi cl cd) = loading o B r chord Rhub Rtip phi cl cd.
Proof.
  intros Hin. pose proof (lossF_unit o _ _ _ _ _ Hin) as HF.
  destruct Hin as (HB & (H1 & H2) & H3 & H4).
  assert (Hs : 0 < sin phi) by (apply sin_gt_0; lra).
  rewrite (proj1 (l_k_eq _ _ _ _ _ _ _ _ _)), l_F_spec by lra. rewrite (proj1 (cn_spec _ _ _ _ _ _ _ _ _)).
  unfold loading, solidity. pose proof PI_RGT_0. field. lra.
Qed.

Lemma kp_spec o B (r chord Rhub Rtip phi cl cd : R) : inside B r Rhub Rtip phi -> cos phi <> 0 ->
  l_kp (bem_locals o B r chord Rhub Rtip phi cl cd) = loading_t o B r chord Rhub Rtip phi cl cd.
Proof.
  intros Hin Hc. pose proof (lossF_unit o _ _ _ _ _ Hin) as HF.
  destruct Hin as (HB & (H1 & H2) & H3 & H4).
  assert (Hs : 0 < sin phi) by (apply sin_gt_0; lra).
  rewrite (proj2 (l_k_eq _ _ _ _ _ _ _ _ _)), l_F_spec by lra. rewrite (proj2 (cn_spec _ _ _ _ _ _ _ _ _)).
  unfold loading_t, solidity. pose proof PI_RGT_0. field. repeat split; lra.
Qed.

(** ** Axial induction as a function of loading and loss factor *)
Definition g2 (k F : R) : R := 2 * F * k - (4 / 3 - F) * F.

Lemma axial_pos_R (k F : R) : axial_pos k F =
  if rleb k (2 / 3) then k / (1 + k)
  else if rltb (Rabs (band F k)) (1 / 1000000) then 1 - 1 / 2 / sqrt (g2 k F)
  else (2 * F * k - (10 / 9 - F) - sqrt (g2 k F)) / band F k.
Proof. reflexivity. Qed.

Lemma g2_gt k F : 2 / 3 < k -> 0 < F -> F ^ 2 < g2 k F.
Proof. intros. unfold g2. nra. Qed.

Lemma sqrt_g2_gt k F : 2 / 3 < k -> 0 < F -> F < sqrt (g2 k F).
Proof.
  intros Hk HF. pose proof (g2_gt k F Hk HF). rewrite <- (sqrt_pow2 F) at 1 by lra.
  apply sqrt_lt_1_alt. split; [nra|assumption].
Qed.

Lemma sqrt_g2_sqr k F : 0 <= g2 k F -> sqrt (g2 k F) * sqrt (g2 k F) = g2 k F.
Proof. intros; apply sqrt_sqrt; assumption. Qed.

(** Key identity: outside the band, 1 - a = 1 / (sqrt g2 + 5/3 - F). *)
Lemma buhl_root k F : 0 <= g2 k F -> 0 < sqrt (g2 k F) + 5 / 3 - F -> band F k <> 0 ->
  (2 * F * k - (10 / 9 - F) - sqrt (g2 k F)) / band F k = 1 - 1 / (sqrt (g2 k F) + 5 / 3 - F).
Proof.
  intros Hg Hp Hb. pose proof (sqrt_g2_sqr k F Hg) as Hq. set (q := sqrt (g2 k F)) in *.
  assert (E : 2 * F * k = q * q + (4 / 3 - F) * F) by (rewrite Hq; unfold g2; ring).
  assert (Hm : band F k = (q + 5 / 3 - F) * (q - (5 / 3 - F))) by (unfold band; rewrite E; field).
  assert (Hm' : 2 * F * k - (10 / 9 - F) - q = (q + 5 / 3 - F - 1) * (q - (5 / 3 - F))) by (rewrite E; field).
  rewrite Hm', Hm. rewrite Hm in Hb. field.
  assert (Hd : q - (5 / 3 - F) <> 0) by (intros E'; apply Hb; rewrite E'; ring).
  split; lra.
Qed.

Lemma axial_low k F : k <= 2 / 3 -> axial_pos k F = k / (1 + k).
Proof. intros. rewrite axial_pos_R. rb_if; [reflexivity|lra]. Qed.

Lemma axial_high k F : 2 / 3 < k -> 0 < F <= 1 -> 1 / 1000000 <= Rabs (band F k) ->
  axial_pos k F = 1 - 1 / (sqrt (g2 k F) + 5 / 3 - F).
Proof.
  intros Hk HF Hb. rewrite axial_pos_R. rb_if; [lra|]. rb_if; [lra|].
  pose proof (g2_gt k F Hk ltac:(lra)). pose proof (sqrt_g2_gt k F Hk ltac:(lra)).
  apply buhl_root; [nra|lra|]. intros E9. rewrite E9, Rabs_R0 in Hb. lra.
Qed.

Lemma axial_band k F : 2 / 3 < k -> Rabs (band F k) < 1 / 1000000 ->
  axial_pos k F = 1 - 1 / 2 / sqrt (g2 k F).
Proof. intros Hk Hb. rewrite axial_pos_R. rb_if; [lra|]. rb_if; [reflexivity|lra]. Qed.

Lemma band_factor k F : 0 <= g2 k F ->
  band F k = (sqrt (g2 k F) + (5 / 3 - F)) * (sqrt (g2 k F) - (5 / 3 - F)).
Proof.
  intros Hg. pose proof (sqrt_g2_sqr k F Hg) as Hq. set (q := sqrt (g2 k F)) in *.
  assert (E : 2 * F * k = q * q + (4 / 3 - F) * F) by (rewrite Hq; unfold g2; ring).
  unfold band. rewrite E. field.
Qed.

(** Buhl's equation holds exactly for 1 - 1/(sqrt g2 + 5/3 - F). *)
Lemma buhl_exact k F u : (u - (5 / 3 - F)) ^ 2 = g2 k F -> u <> 0 ->
  buhl_CT F (1 - 1 / u) = 4 * F * k * (1 - (1 - 1 / u)) ^ 2.
Proof.
  intros Hu Hn. unfold buhl_CT, g2 in *.
  assert (Hk : 2 * F * k = (u - (5 / 3 - F)) ^ 2 + (4 / 3 - F) * F) by lra.
  replace (4 * F * k) with (2 * (2 * F * k)) by ring. rewrite Hk. field. assumption.
Qed.

Lemma buhl_exact_inv k F a : a < 1 -> buhl_CT F a = 4 * F * k * (1 - a) ^ 2 ->
  (1 / (1 - a) - (5 / 3 - F)) ^ 2 = g2 k F.
Proof.
  intros Ha Hb. unfold buhl_CT in Hb. unfold g2.
  assert (Hm : (1 - a) ^ 2 <> 0) by (apply pow_nonzero; lra).
  assert (Hk : 4 * F * k = (8 / 9 + (4 * F - 40 / 9) * a + (50 / 9 - 4 * F) * a ^ 2) / (1 - a) ^ 2).
  { rewrite Hb. field. lra. }
  replace (2 * F * k) with (4 * F * k / 2) by field. rewrite Hk. field. lra.
Qed.

(** ** Unfolding the routine for a positive inflow angle *)
Lemma ind_pos o B (r chord Rhub Rtip phi cl cd Vx Vy : R) : inside B r Rhub Rtip phi ->
  let k := loading o B r chord Rhub Rtip phi cl cd in
  let F := lossF o B r Rhub Rtip phi in
  let kp := if wakerotation o then l_kp (bem_locals o B r chord Rhub Rtip phi cl cd) else 0 in
  inductionFactors o B r chord Rhub Rtip phi cl cd Vx Vy =
    (sin phi / (1 - axial_pos k F) - cos phi / (Vy / Vx) * (1 - kp), axial_pos k F,
     if wakerotation o then kp / (1 - kp) else 0).
Proof.
  intros Hin k F kp. pose proof Hin as (HB & (H1 & H2) & H3 & H4).
  assert (Hs : 0 < sin phi) by (apply sin_gt_0; lra).
  unfold inductionFactors. rewrite (k_spec o B r chord Rhub Rtip phi cl cd Hin).
  rewrite l_F_spec by lra. fold k F. unfold kp.
  change (nlt (ofR 0) phi) with (rltb 0 phi).
  replace (rltb 0 phi) with true by (symmetry; apply rltb_true; lra).
  destruct (wakerotation o); reflexivity.
Qed.

Lemma ind_pos_a o B (r chord Rhub Rtip phi cl cd Vx Vy : R) : inside B r Rhub Rtip phi ->
  out_a (inductionFactors o B r chord Rhub Rtip phi cl cd Vx Vy)
  = axial_pos (loading o B r chord Rhub Rtip phi cl cd) (lossF o B r Rhub Rtip phi).
Proof. intros Hin. rewrite ind_pos by assumption. reflexivity. Qed.

(** ** C14 *)
Lemma blade_CT_k o B r chord Rhub Rtip phi cl cd a : inside B r Rhub Rtip phi ->
  blade_CT o B r chord phi cl cd a =
  4 * lossF o B r Rhub Rtip phi * loading o B r chord Rhub Rtip phi cl cd * (1 - a) ^ 2.
Proof.
  intros Hin. pose proof (lossF_unit o _ _ _ _ _ Hin) as HF. destruct Hin as (HB & (H1 & H2) & H3 & H4).
  assert (Hs : 0 < sin phi) by (apply sin_gt_0; lra).
  unfold blade_CT, loading, solidity. pose proof PI_RGT_0. field. lra.
Qed.

Lemma momentum_balance : forall o B (r chord Rhub Rtip phi cl cd Vx Vy fz a ap : R),
  inside B r Rhub Rtip phi ->
  inductionFactors o B r chord Rhub Rtip phi cl cd Vx Vy = (fz, a, ap) ->
  let k := loading o B r chord Rhub Rtip phi cl cd in
  let F := lossF o B r Rhub Rtip phi in
  (k <= 2 / 3 -> k <> - 1 -> blade_CT o B r chord phi cl cd a = momentum_CT F a) /\
  (2 / 3 < k -> 1 / 1000000 <= Rabs (band F k) -> blade_CT o B r chord phi cl cd a = buhl_CT F a).
Proof.
  intros o B r chord Rhub Rtip phi cl cd Vx Vy fz a ap Hin Heq k F.
  pose proof (lossF_unit o _ _ _ _ _ Hin) as HF. fold F in HF.
  assert (Ha : a = axial_pos k F).
  { pose proof (ind_pos_a o B r chord Rhub Rtip phi cl cd Vx Vy Hin) as H. rewrite Heq in H. exact H. }
  rewrite (blade_CT_k _ _ _ _ Rhub Rtip) by assumption. fold F k.
  split.
  - intros Hk Hk1. rewrite Ha, axial_low by assumption. unfold momentum_CT. field. lra.
  - intros Hk Hb. rewrite Ha, axial_high by assumption.
    pose proof (g2_gt k F Hk ltac:(lra)). pose proof (sqrt_g2_gt k F Hk ltac:(lra)).
    symmetry. apply buhl_exact; [|lra].
    replace (sqrt (g2 k F) + 5 / 3 - F - (5 / 3 - F)) with (sqrt (g2 k F)) by ring.
    simpl. rewrite Rmult_1_r. apply sqrt_g2_sqr. nra.
Qed.

Lemma tangential_balance : forall o B (r chord Rhub Rtip phi cl cd Vx Vy fz a ap : R),
  inside B r Rhub Rtip phi -> wakerotation o = true -> cos phi <> 0 ->
  loading_t o B r chord Rhub Rtip phi cl cd <> 1 ->
  inductionFactors o B r chord Rhub Rtip phi cl cd Vx Vy = (fz, a, ap) ->
  1 + ap <> 0 /\ ap / (1 + ap) = loading_t o B r chord Rhub Rtip phi cl cd /\
  solidity B chord r * coef_t (useCd o) cl cd phi * (1 + ap)
    = 4 * lossF o B r Rhub Rtip phi * sin phi * cos phi * ap.
Proof.
  intros o B r chord Rhub Rtip phi cl cd Vx Vy fz a ap Hin Hw Hc Hk Heq.
  pose proof (lossF_unit o _ _ _ _ _ Hin) as HF.
  pose proof Hin as (HB & (H1 & H2) & H3 & H4).
  assert (Hs : 0 < sin phi) by (apply sin_gt_0; lra).
  rewrite ind_pos, Hw, kp_spec in Heq by assumption. injection Heq; intros <- _ _.
  set (t := loading_t o B r chord Rhub Rtip phi cl cd) in *.
  assert (E : 1 + t / (1 - t) = 1 / (1 - t)) by (field; lra).
  rewrite E. split; [|split].
  - apply Rmult_integral_contrapositive_currified; [lra|apply Rinv_neq_0_compat; lra].
  - field. lra.
  - unfold t, loading_t in *. set (F := lossF o B r Rhub Rtip phi) in *.
    set (X := solidity B chord r * coef_t (useCd o) cl cd phi) in *.
    field. assert (HFF : 4 * F * sin phi * cos phi <> 0).
    { nz. }
    repeat split; try assumption; try lra. intros E'. apply Hk.
    apply Rmult_eq_reg_r with (4 * F * sin phi * cos phi); [|assumption].
    unfold Rdiv. rewrite Rmult_assoc, Rinv_l by assumption. lra.
Qed.

(** ** C15 *)
Lemma sqrt_g2_mono k k' F : 2 / 3 < k < k' -> 0 < F -> sqrt (g2 k F) < sqrt (g2 k' F).
Proof.
  intros Hk HF. pose proof (g2_gt k F ltac:(lra) HF).
  assert (F * k < F * k') by nra. pose proof (pow2_ge_0 F).
  apply sqrt_lt_1_alt. unfold g2 in *. split; lra.
Qed.

Lemma inv_lt x y : 0 < x -> x < y -> 1 / y < 1 / x.
Proof. intros. unfold Rdiv. rewrite !Rmult_1_l. apply Rinv_lt_contravar; nra. Qed.

(** Outside the band. *)
Lemma axial_high_bounds k F : 2 / 3 < k -> 0 < F <= 1 -> 1 / 1000000 <= Rabs (band F k) ->
  2 / 5 < axial_pos k F < 1.
Proof.
  intros Hk HF Hb.
  pose proof (g2_gt k F Hk ltac:(lra)) as Hg. pose proof (sqrt_g2_gt k F Hk ltac:(lra)) as Hq.
  rewrite axial_high by assumption. set (q := sqrt (g2 k F)) in *.
  pose proof (inv_lt (5 / 3) (q + 5 / 3 - F) ltac:(lra) ltac:(lra)) as Hi.
  assert (0 < 1 / (q + 5 / 3 - F)) by (apply Rdiv_lt_0_compat; lra).
  replace (1 / (5 / 3)) with (3 / 5) in Hi by field. lra.
Qed.

(** Within the band the guarded value is close to the exact root. *)
Lemma band_error k F : 2 / 3 < k -> 0 < F <= 1 -> Rabs (band F k) < 1 / 1000000 ->
  let q := sqrt (g2 k F) in
  0 < q + 5 / 3 - F /\
  Rabs (axial_pos k F - (1 - 1 / (q + 5 / 3 - F))) <= Rabs (band F k) /\ axial_pos k F < 1.
Proof.
  intros Hk HF Hb q.
  pose proof (g2_gt k F Hk ltac:(lra)) as Hg. pose proof (sqrt_g2_gt k F Hk ltac:(lra)) as Hq. fold q in Hq.
  rewrite axial_band by assumption. fold q.
  assert (Hbf := band_factor k F ltac:(nra)). fold q in Hbf.
  assert (Hqq : q * q = g2 k F) by (apply sqrt_sqrt; nra).
  assert (Hq6 : 6 / 10 < q).
  { destruct (Rlt_le_dec (6 / 10) q) as [|Hle]; [assumption|]. exfalso.
    apply Rabs_def2 in Hb. destruct Hb as [Hb1 Hb2]. rewrite Hbf in Hb2.
    assert (1 < 5 / 3 - F) by lra. nra. }
  split; [lra|].
  replace (1 - 1 / 2 / q - (1 - 1 / (q + 5 / 3 - F))) with
    (band F k * (1 / (2 * q * ((q + 5 / 3 - F) * (q + 5 / 3 - F))))).
  - split.
    + rewrite Rabs_mult. rewrite <- (Rmult_1_r (Rabs (band F k))) at 2.
      apply Rmult_le_compat_l; [apply Rabs_pos|].
      assert (H1 : 1 <= 2 * q * ((q + 5 / 3 - F) * (q + 5 / 3 - F))).
      { assert (1 <= q + 5 / 3 - F) by lra.
        assert (1 <= (q + 5 / 3 - F) * (q + 5 / 3 - F)) by nra. nra. }
      rewrite Rabs_right.
      * apply Rmult_le_reg_r with (2 * q * ((q + 5 / 3 - F) * (q + 5 / 3 - F))); [lra|].
        unfold Rdiv. rewrite Rmult_1_l, Rinv_l by lra. lra.
      * apply Rle_ge. left. apply Rdiv_lt_0_compat; lra.
    + assert (0 < 1 / 2 / q) by (apply Rdiv_lt_0_compat; lra). lra.
  - rewrite Hbf. field. lra.
Qed.

Lemma axial_low_mono k k' F : - 1 < k -> k < k' -> k' <= 2 / 3 -> axial_pos k F < axial_pos k' F.
Proof.
  intros. rewrite !axial_low by lra.
  replace (k / (1 + k)) with (1 - 1 / (1 + k)) by (field; lra).
  replace (k' / (1 + k')) with (1 - 1 / (1 + k')) by (field; lra).
  pose proof (inv_lt (1 + k) (1 + k') ltac:(lra) ltac:(lra)). lra.
Qed.

Lemma axial_low_bound k F : - 1 < k -> k <= 2 / 3 -> axial_pos k F <= 2 / 5.
Proof.
  intros H1 H2. destruct H2 as [H2|H2].
  - pose proof (axial_low_mono k (2 / 3) F H1 H2 ltac:(lra)).
    rewrite (axial_low (2 / 3)) in H by lra. replace (2 / 3 / (1 + 2 / 3)) with (2 / 5) in H by field. lra.
  - subst. rewrite axial_low by lra. right. field.
Qed.

Lemma axial_mono k k' F : - 1 < k -> k < k' -> 0 < F <= 1 ->
  (2 / 3 < k -> 1 / 1000000 <= Rabs (band F k)) -> (2 / 3 < k' -> 1 / 1000000 <= Rabs (band F k')) ->
  axial_pos k F < axial_pos k' F.
Proof.
  intros H1 H2 HF Hb Hb'.
  destruct (Rlt_le_dec (2 / 3) k) as [Hk|Hk].
  - rewrite !axial_high; try (apply Hb; lra); try (apply Hb'; lra); try lra.
    pose proof (sqrt_g2_mono k k' F ltac:(lra) ltac:(lra)). pose proof (sqrt_g2_gt k F Hk ltac:(lra)).
    pose proof (inv_lt (sqrt (g2 k F) + 5 / 3 - F) (sqrt (g2 k' F) + 5 / 3 - F) ltac:(lra) ltac:(lra)). lra.
  - destruct (Rlt_le_dec (2 / 3) k') as [Hk'|Hk'].
    + pose proof (axial_low_bound k F H1 Hk). pose proof (axial_high_bounds k' F Hk' HF (Hb' Hk')). lra.
    + apply axial_low_mono; assumption.
Qed.

Lemma a_below_one : forall o B (r chord Rhub Rtip phi cl cd Vx Vy fz a ap : R),
  inside B r Rhub Rtip phi ->
  inductionFactors o B r chord Rhub Rtip phi cl cd Vx Vy = (fz, a, ap) ->
  let k := loading o B r chord Rhub Rtip phi cl cd in
  let F := lossF o B r Rhub Rtip phi in
  - 1 < k ->
  a < 1 /\ (k <= 2 / 3 -> a <= 2 / 5) /\
  (2 / 3 < k -> 1 / 1000000 <= Rabs (band F k) -> 2 / 5 < a) /\
  (2 / 3 < k -> 2 / 5 - 1 / 1000000 < a).
Proof.
  intros o B r chord Rhub Rtip phi cl cd Vx Vy fz a ap Hin Heq k F Hk.
  pose proof (lossF_unit o _ _ _ _ _ Hin) as HF. fold F in HF.
  assert (Ha : a = axial_pos k F).
  { pose proof (ind_pos_a o B r chord Rhub Rtip phi cl cd Vx Vy Hin) as H. rewrite Heq in H. exact H. }
  subst a.
  destruct (Rlt_le_dec (2 / 3) k) as [Hk2|Hk2].
  - destruct (Rlt_le_dec (Rabs (band F k)) (1 / 1000000)) as [Hb|Hb].
    + destruct (band_error k F Hk2 HF Hb) as (H1 & H2 & H3).
      split; [assumption|]. split; [lra|]. split; [lra|]. intros _.
      pose proof (sqrt_g2_gt k F Hk2 ltac:(lra)) as Hq. set (q := sqrt (g2 k F)) in *.
      pose proof (inv_lt (5 / 3) (q + 5 / 3 - F) ltac:(lra) ltac:(lra)) as Hi.
      replace (1 / (5 / 3)) with (3 / 5) in Hi by field.
      apply Rabs_le_between in H2. lra.
    + pose proof (axial_high_bounds k F Hk2 HF Hb). lra.
  - pose proof (axial_low_bound k F Hk Hk2). lra.
Qed.

Lemma a_increasing : forall o B (r Rhub Rtip phi : R) chord cl cd Vx Vy fz a ap chord' cl' cd' Vx' Vy' fz' a' ap',
  inside B r Rhub Rtip phi ->
  inductionFactors o B r chord Rhub Rtip phi cl cd Vx Vy = (fz, a, ap) ->
  inductionFactors o B r chord' Rhub Rtip phi cl' cd' Vx' Vy' = (fz', a', ap') ->
  let k := loading o B r chord Rhub Rtip phi cl cd in
  let k' := loading o B r chord' Rhub Rtip phi cl' cd' in
  let F := lossF o B r Rhub Rtip phi in
  - 1 < k -> k < k' ->
  (2 / 3 < k -> 1 / 1000000 <= Rabs (band F k)) -> (2 / 3 < k' -> 1 / 1000000 <= Rabs (band F k')) ->
  a < a'.
Proof.
  intros o B r Rhub Rtip phi chord cl cd Vx Vy fz a ap chord' cl' cd' Vx' Vy' fz' a' ap' Hin H1 H2 k k' F Hk Hkk Hb Hb'.
  pose proof (lossF_unit o _ _ _ _ _ Hin) as HF. fold F in HF.
  pose proof (ind_pos_a o B r chord Rhub Rtip phi cl cd Vx Vy Hin) as E1. rewrite H1 in E1. unfold out_a in E1; cbn in E1.
  pose proof (ind_pos_a o B r chord' Rhub Rtip phi cl' cd' Vx' Vy' Hin) as E2. rewrite H2 in E2. unfold out_a in E2; cbn in E2.
  rewrite E1, E2. apply axial_mono; assumption.
Qed.

(** ** C17 *)
Lemma exact_root_unique k F a : 2 / 3 < k -> 0 < F <= 1 -> 2 / 5 <= a < 1 ->
  buhl_CT F a = 4 * F * k * (1 - a) ^ 2 -> a = 1 - 1 / (sqrt (g2 k F) + 5 / 3 - F).
Proof.
  intros Hk HF Ha Hb. pose proof (g2_gt k F Hk ltac:(lra)) as Hg.
  pose proof (sqrt_g2_gt k F Hk ltac:(lra)) as Hq.
  pose proof (buhl_exact_inv k F a ltac:(lra) Hb) as Hu.
  assert (Hu1 : 5 / 3 <= 1 / (1 - a)).
  { apply Rmult_le_reg_r with (1 - a); [lra|]. unfold Rdiv at 2. rewrite Rmult_1_l, Rinv_l by lra. lra. }
  assert (Hs : sqrt (g2 k F) = 1 / (1 - a) - (5 / 3 - F)).
  { rewrite <- Hu. apply sqrt_pow2. lra. }
  rewrite Hs. field. repeat split; try lra.
Qed.

Lemma guard_error : forall o B (r chord Rhub Rtip phi cl cd Vx Vy fz a ap : R),
  inside B r Rhub Rtip phi ->
  inductionFactors o B r chord Rhub Rtip phi cl cd Vx Vy = (fz, a, ap) ->
  let k := loading o B r chord Rhub Rtip phi cl cd in
  let F := lossF o B r Rhub Rtip phi in
  2 / 3 < k -> Rabs (band F k) < 1 / 1000000 ->
  (exists a0, 2 / 5 <= a0 < 1 /\ blade_CT o B r chord phi cl cd a0 = buhl_CT F a0) /\
  (forall a0, 2 / 5 <= a0 < 1 -> blade_CT o B r chord phi cl cd a0 = buhl_CT F a0 ->
     Rabs (a - a0) <= Rabs (band F k)).
Proof.
  intros o B r chord Rhub Rtip phi cl cd Vx Vy fz a ap Hin Heq k F Hk Hb.
  pose proof (lossF_unit o _ _ _ _ _ Hin) as HF. fold F in HF.
  assert (Ha : a = axial_pos k F).
  { pose proof (ind_pos_a o B r chord Rhub Rtip phi cl cd Vx Vy Hin) as H. rewrite Heq in H. exact H. }
  pose proof (g2_gt k F Hk ltac:(lra)) as Hg. pose proof (sqrt_g2_gt k F Hk ltac:(lra)) as Hq.
  split.
  - exists (1 - 1 / (sqrt (g2 k F) + 5 / 3 - F)). split.
    + pose proof (inv_lt (5 / 3) (sqrt (g2 k F) + 5 / 3 - F) ltac:(lra) ltac:(lra)) as Hi.
      assert (0 < 1 / (sqrt (g2 k F) + 5 / 3 - F)) by (apply Rdiv_lt_0_compat; lra).
      replace (1 / (5 / 3)) with (3 / 5) in Hi by field. lra.
    + rewrite (blade_CT_k _ _ _ _ Rhub Rtip) by assumption. fold F k. symmetry. apply buhl_exact; [|lra].
      replace (sqrt (g2 k F) + 5 / 3 - F - (5 / 3 - F)) with (sqrt (g2 k F)) by ring.
      simpl. rewrite Rmult_1_r. apply sqrt_g2_sqr. nra.
  - intros a0 Ha0 HE. rewrite (blade_CT_k _ _ _ _ Rhub Rtip) in HE by assumption. fold F k in HE.
    rewrite (exact_root_unique k F a0 Hk HF Ha0 (eq_sym HE)), Ha.
    destruct (band_error k F Hk HF Hb) as (_ & H & _). exact H.
Qed.

(** ** C18 *)
Lemma residual_triangle : forall o B (r chord Rhub Rtip phi cl cd Vx Vy a ap : R),
  inside B r Rhub Rtip phi -> cos phi <> 0 -> Vx <> 0 -> Vy <> 0 ->
  - 1 < loading o B r chord Rhub Rtip phi cl cd ->
  loading_t o B r chord Rhub Rtip phi cl cd <> 1 ->
  inductionFactors o B r chord Rhub Rtip phi cl cd Vx Vy = (0, a, ap) ->
  1 + ap <> 0 /\
  sin phi / (1 - a) = cos phi / (Vy / Vx * (1 + ap)) /\
  forall pitch theta rho mu alpha W Re,
  relativeWind phi a ap Vx Vy pitch chord theta rho mu = (alpha, W, Re) ->
  (0 < Vx -> W * sin phi = Vx * (1 - a) /\ W * cos phi = Vy * (1 + ap)) /\
  (Vx < 0 -> Rabs W * sin phi = - (Vx * (1 - a)) /\ Rabs W * cos phi = - (Vy * (1 + ap))) /\
  0 < Rabs W.
Proof.
  intros o B r chord Rhub Rtip phi cl cd Vx Vy a ap Hin Hc HVx HVy Hk Hkt Heq.
  pose proof (a_below_one o B r chord Rhub Rtip phi cl cd Vx Vy 0 a ap Hin Heq Hk) as (Ha & _).
  pose proof Hin as (HB & (H1 & H2) & H3 & H4).
  assert (Hs : 0 < sin phi) by (apply sin_gt_0; lra).
  rewrite ind_pos, kp_spec in Heq by assumption.
  set (t := loading_t o B r chord Rhub Rtip phi cl cd) in *.
  set (kp := if wakerotation o then t else 0) in *.
  assert (Hkp : kp <> 1) by (unfold kp; destruct (wakerotation o); lra).
  injection Heq; intros Hap Ha' Hz. rewrite Ha' in Hz. clear Heq.
  assert (Hap' : 1 + ap = 1 / (1 - kp)).
  { rewrite <- Hap. unfold kp in *. destruct (wakerotation o); field; lra. }
  assert (Hn : 1 + ap <> 0).
  { rewrite Hap'. apply Rmult_integral_contrapositive_currified; [lra|apply Rinv_neq_0_compat; lra]. }
  assert (Hlam : Vy / Vx <> 0) by (apply Rmult_integral_contrapositive_currified; [lra|apply Rinv_neq_0_compat; lra]).
  assert (Htri : sin phi / (1 - a) = cos phi / (Vy / Vx * (1 + ap))).
  { assert (E : sin phi / (1 - a) = cos phi / (Vy / Vx) * (1 - kp)) by lra.
    rewrite E, Hap'. field. repeat split; lra. }
  split; [assumption|]. split; [assumption|].
  intros pitch theta rho mu alpha W Re HW.
  assert (Hpar : sin phi * (Vy * (1 + ap)) = cos phi * (Vx * (1 - a))).
  { assert (E : sin phi / (1 - a) * ((1 - a) * (Vy * (1 + ap))) = cos phi / (Vy / Vx * (1 + ap)) * ((1 - a) * (Vy * (1 + ap))))
      by (rewrite Htri; reflexivity).
    replace (sin phi / (1 - a) * ((1 - a) * (Vy * (1 + ap)))) with (sin phi * (Vy * (1 + ap))) in E by (field; lra).
    rewrite E. field. repeat split; lra. }
  set (rh := Vx * (1 - a) / sin phi).
  assert (Hr1 : rh * sin phi = Vx * (1 - a)) by (unfold rh; field; lra).
  assert (Hr2 : rh * cos phi = Vy * (1 + ap)).
  { unfold rh. apply Rmult_eq_reg_l with (sin phi); [|lra]. rewrite Hpar. field. lra. }
  assert (HWr : W = rh \/ W = Rabs rh).
  { unfold relativeWind in HW. injection HW; intros _ HW' _. clear HW.
    cbn [ofR nadd nsub nmul ndiv nsqrt nsin ncos nabs nlt R_arith] in HW'. rewrite <- HW'.
    rb_if; [left|rb_if; [left|right]].
    - rewrite <- Hr2. field. assumption.
    - reflexivity.
    - rewrite <- Hr1, <- Hr2.
      replace (rh * sin phi * (rh * sin phi) + rh * cos phi * (rh * cos phi))
        with (Rsqr rh * (Rsqr (sin phi) + Rsqr (cos phi))) by (unfold Rsqr; ring).
      rewrite sin2_cos2, Rmult_1_r. apply sqrt_Rsqr_abs. }
  assert (Hrn : rh <> 0).
  { intros E. rewrite E in Hr1. rewrite Rmult_0_l in Hr1. symmetry in Hr1. apply Rmult_integral in Hr1. lra. }
  assert (HaW : Rabs W = Rabs rh) by (destruct HWr as [->| ->]; [reflexivity|apply Rabs_Rabsolu]).
  split; [|split].
  - intros Hp. assert (0 < rh) by (unfold rh; apply Rdiv_lt_0_compat; nra).
    assert (W = rh) by (destruct HWr as [->| ->]; [reflexivity|apply Rabs_right; lra]). subst W. split; assumption.
  - intros Hp. assert (Hneg : rh < 0).
    { assert (0 < - rh); [|lra]. unfold rh. replace (- (Vx * (1 - a) / sin phi)) with ((- Vx) * (1 - a) / sin phi) by (field; lra).
      apply Rdiv_lt_0_compat; nra. }
    rewrite HaW, Rabs_left by assumption. split; lra.
  - rewrite HaW. apply Rabs_pos_lt. assumption.
Qed.

(** ** C13 and C19 *)
Lemma loss_factor : forall o B (r chord Rhub Rtip phi cl cd : R), inside B r Rhub Rtip phi ->
  let F := l_F (bem_locals o B r chord Rhub Rtip phi cl cd) in
  F = lossF o B r Rhub Rtip phi /\ 0 < F <= 1 /\
  (tipLoss o = true \/ hubLoss o = true -> F < 1) /\
  (tipLoss o = false -> hubLoss o = false -> F = 1).
Proof.
  intros o B r chord Rhub Rtip phi cl cd Hin F. pose proof Hin as (HB & (H1 & H2) & H3 & H4).
  assert (Hs : 0 < sin phi) by (apply sin_gt_0; lra).
  assert (E : F = lossF o B r Rhub Rtip phi) by (apply l_F_spec; lra).
  split; [exact E|]. rewrite E. split; [apply lossF_unit; assumption|].
  pose proof (prandtl_unit B (Rtip - r) r phi HB ltac:(lra) ltac:(lra) Hs).
  pose proof (prandtl_unit B (r - Rhub) Rhub phi HB ltac:(lra) ltac:(lra) Hs).
  unfold lossF. split.
  - intros [->| ->]; [destruct (hubLoss o)|destruct (tipLoss o)]; nra.
  - intros -> ->. ring.
Qed.

Lemma switch_cd {A} `{Arith A} : forall o B (r chord Rhub Rtip phi cl cd cd' Vx Vy : A), useCd o = false ->
  inductionFactors o B r chord Rhub Rtip phi cl cd Vx Vy = inductionFactors o B r chord Rhub Rtip phi cl cd' Vx Vy.
Proof. intros o B r chord Rhub Rtip phi cl cd cd' Vx Vy E. unfold inductionFactors, bem_locals. rewrite E. reflexivity. Qed.

Lemma switch_wake {A} `{Arith A} : forall o B (r chord Rhub Rtip phi cl cd Vx Vy : A), wakerotation o = false ->
  out_ap (inductionFactors o B r chord Rhub Rtip phi cl cd Vx Vy) = ofR 0.
Proof. intros o B r chord Rhub Rtip phi cl cd Vx Vy E. unfold inductionFactors, out_ap. rewrite E. reflexivity. Qed.

Lemma switch_tip {A} `{Arith A} : forall o B (r chord Rhub Rtip Rtip' phi cl cd Vx Vy : A), tipLoss o = false ->
  inductionFactors o B r chord Rhub Rtip phi cl cd Vx Vy = inductionFactors o B r chord Rhub Rtip' phi cl cd Vx Vy.
Proof. intros o B r chord Rhub Rtip Rtip' phi cl cd Vx Vy E. unfold inductionFactors, bem_locals. rewrite E. reflexivity. Qed.

Lemma switch_hub {A} `{Arith A} : forall o B (r chord Rhub Rhub' Rtip phi cl cd Vx Vy : A), hubLoss o = false ->
  inductionFactors o B r chord Rhub Rtip phi cl cd Vx Vy = inductionFactors o B r chord Rhub' Rtip phi cl cd Vx Vy.
Proof. intros o B r chord Rhub Rhub' Rtip phi cl cd Vx Vy E. unfold inductionFactors, bem_locals. rewrite E. reflexivity. Qed.
