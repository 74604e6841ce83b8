(** The Betz limit (C101). *)
From Coquelicot Require Import Coquelicot.
From Coq Require Import Reals Bool Arith List Lra Lia Psatz.
From Verif Require Import Prelim Num Bem IndSpec IndProofs.
Open Scope R_scope.

(** ** Momentum theory: the power extracted from an annulus *)
Lemma cube_tangent x y : 0 <= x -> 0 <= y -> 3 * y ^ 2 * x - 2 * y ^ 3 <= x ^ 3.
Proof. intros Hx Hy. assert (H : 0 <= (x - y) ^ 2 * (x + 2 * y)) by (apply Rmult_le_pos; [apply pow2_ge_0|lra]). nra. Qed.

Lemma power_factor k F : 0 < F <= 1 -> 0 <= k -> 4 * F * k * (1 - axial_pos k F) ^ 3 <= 16 / 27.
Proof.
  intros HF Hk. destruct (Rle_lt_dec k (2 / 3)) as [H|H].
  - rewrite axial_low by exact H. set (x := 1 - k / (1 + k)).
    assert (Ex : x * (1 + k) = 1) by (unfold x; field; lra).
    assert (Hx : 0 < x) by nra. assert (Hx1 : x <= 1) by nra.
    assert (E : 4 * F * k * x ^ 3 = F * (4 * (1 - x) * x ^ 2)).
    { replace (1 - x) with (k * x) by (rewrite <- Ex; ring). ring. }
    rewrite E. pose proof (cube_tangent x (2 / 3) ltac:(lra) ltac:(lra)).
    assert (4 * (1 - x) * x ^ 2 <= 16 / 27).
    { assert (0 <= (x - 2 / 3) ^ 2 * (x + 1 / 3)) by (apply Rmult_le_pos; [apply pow2_ge_0|lra]). nra. }
    assert (0 <= 4 * (1 - x) * x ^ 2) by (apply Rmult_le_pos; [lra|apply pow2_ge_0]). nra.
  - destruct (Rlt_le_dec (Rabs (band F k)) (1 / 1000000)) as [Hb|Hb].
    + rewrite axial_band by assumption.
      pose proof (g2_gt k F H ltac:(lra)) as Hg. pose proof (sqrt_g2_gt k F H ltac:(lra)) as Hq.
      assert (Hbf := band_factor k F ltac:(nra)). set (q := sqrt (g2 k F)) in *.
      apply Rabs_def2 in Hb. destruct Hb as [Hb1 Hb2].
      assert (E : 2 * F * k = 2 * (5 / 3 - F) - 5 / 9 + band F k) by (unfold band; lra).
      assert (Hu : - (1 / 100000) < q - (5 / 3 - F) < 1 / 100000).
      { assert (Hs : 1 / 2 < q + (5 / 3 - F)) by lra. set (d := q - (5 / 3 - F)) in *. set (s := q + (5 / 3 - F)) in *. rewrite Hbf in Hb1, Hb2. split; nra. }
      assert (Hq8 : 83 / 100 < q) by lra.
      replace (1 - (1 - 1 / 2 / q)) with (1 / 2 / q) by ring.
      replace (4 * F * k * (1 / 2 / q) ^ 3) with (2 * F * k / (4 * q ^ 3)) by (field; lra).
      pose proof (cube_tangent q (9 / 10) ltac:(lra) ltac:(lra)) as HT.
      assert (P : 0 < 4 * q ^ 3) by (apply Rmult_lt_0_compat; [lra|apply pow_lt; lra]).
      apply Rmult_le_reg_r with (4 * q ^ 3); [exact P|]. unfold Rdiv at 1. rewrite Rmult_assoc, Rinv_l, Rmult_1_r by lra. rewrite E. lra.
    + pose proof (axial_high_bounds k F H HF Hb) as Ha. rewrite axial_high in * by assumption.
      pose proof (g2_gt k F H ltac:(lra)) as Hg. pose proof (sqrt_g2_gt k F H ltac:(lra)) as Hq.
      assert (HB : buhl_CT F (1 - 1 / (sqrt (g2 k F) + 5 / 3 - F)) = 4 * F * k * (1 - (1 - 1 / (sqrt (g2 k F) + 5 / 3 - F))) ^ 2).
      { apply buhl_exact; [|lra]. replace (sqrt (g2 k F) + 5 / 3 - F - (5 / 3 - F)) with (sqrt (g2 k F)) by ring.
        simpl. rewrite Rmult_1_r. apply sqrt_g2_sqr. nra. }
      set (a := 1 - 1 / (sqrt (g2 k F) + 5 / 3 - F)) in *.
      replace (4 * F * k * (1 - a) ^ 3) with (4 * F * k * (1 - a) ^ 2 * (1 - a)) by ring. rewrite <- HB. unfold buhl_CT.
      assert (M : 8 / 9 + (4 * F - 40 / 9) * a + (50 / 9 - 4 * F) * a ^ 2 <= 8 / 9 - 4 / 9 * a + 14 / 9 * a ^ 2).
      { assert (0 <= (1 - F) * (a * (1 - a))) by (apply Rmult_le_pos; [lra|apply Rmult_le_pos; lra]). nra. }
      assert ((8 / 9 - 4 / 9 * a + 14 / 9 * a ^ 2) * (1 - a) <= 16 / 27).
      { set (x := a - 2 / 5). assert (0 < x < 3 / 5) by (unfold x; lra). replace a with (x + 2 / 5) by (unfold x; ring).
        assert (0 <= x ^ 2) by apply pow2_ge_0. assert (0 <= x ^ 3) by (apply pow_le; lra).
        assert (0 <= x * (432 / 100 - 12 / 10 * x)) by (apply Rmult_le_pos; lra). lra. }
      apply Rle_trans with ((8 / 9 - 4 / 9 * a + 14 / 9 * a ^ 2) * (1 - a)); [apply Rmult_le_compat_r; lra|assumption].
Qed.

(** ** One annulus: a zero of the residual with a positive tangential force *)
Section Annulus.
Variables (o : bemopts) (B : nat) (r chord Rhub Rtip phi cl cd Vx Vy a ap : R).
Hypothesis Hin : inside B r Rhub Rtip phi.
Hypothesis Hphi : phi < PI / 2.
Hypothesis HVx : 0 < Vx.
Hypothesis HVy : 0 < Vy.
Hypothesis Hch : 0 <= chord.
Hypothesis Hcd : 0 <= cd.
Hypothesis Hct : 0 < cl * sin phi - cd * cos phi.

Let k := loading o B r chord Rhub Rtip phi cl cd.
Let F := lossF o B r Rhub Rtip phi.
Let t := loading_t o B r chord Rhub Rtip phi cl cd.

Lemma ann_trig : 0 < sin phi /\ 0 < cos phi.
Proof. destruct Hin as (_ & _ & _ & H). split; [apply sin_gt_0|apply cos_gt_0]; lra. Qed.

Lemma ann_cl : 0 < cl.
Proof.
  destruct ann_trig as [Hs Hc]. destruct (Rle_lt_dec cl 0) as [Hl|Hl]; [|exact Hl].
  exfalso. assert (cl * sin phi <= 0) by nra. assert (0 <= cd * cos phi) by (apply Rmult_le_pos; lra). lra.
Qed.

Lemma ann_solidity : 0 <= solidity B chord r.
Proof.
  destruct Hin as (_ & (H1 & H2) & _). unfold solidity. pose proof PI_RGT_0.
  apply Rmult_le_pos; [apply Rmult_le_pos; [apply pos_INR|exact Hch]|]. left. apply Rinv_0_lt_compat.
  apply Rmult_lt_0_compat; lra.
Qed.

Lemma ann_n : 0 < coef_n (useCd o) cl cd phi /\ (cl * sin phi - cd * cos phi) * cos phi <= coef_n (useCd o) cl cd phi * sin phi.
Proof.
  destruct ann_trig as [Hs Hc]. pose proof ann_cl as Hl. unfold coef_n.
  assert (0 <= cd * sin phi) by (apply Rmult_le_pos; lra). assert (0 < cl * cos phi) by (apply Rmult_lt_0_compat; lra).
  assert (0 <= cd * sin phi * sin phi) by (apply Rmult_le_pos; lra). assert (0 <= cd * cos phi * cos phi) by (apply Rmult_le_pos; [apply Rmult_le_pos|]; lra).
  destruct (useCd o); split; nra.
Qed.

Lemma ann_t : 0 < coef_t (useCd o) cl cd phi.
Proof.
  destruct ann_trig as [Hs Hc]. pose proof ann_cl as Hl. unfold coef_t.
  assert (0 < cl * sin phi) by (apply Rmult_lt_0_compat; lra). destruct (useCd o); lra.
Qed.

Lemma ann_k : 0 <= k.
Proof.
  destruct ann_trig as [Hs Hc]. pose proof (lossF_unit o _ _ _ _ _ Hin) as HF. pose proof ann_n as [Hn _]. pose proof ann_solidity.
  unfold k, loading. apply Rmult_le_pos; [apply Rmult_le_pos; lra|]. left. apply Rinv_0_lt_compat.
  apply Rmult_lt_0_compat; [lra|apply pow_lt; lra].
Qed.

Lemma ann_tpos : 0 <= t.
Proof.
  destruct ann_trig as [Hs Hc]. pose proof (lossF_unit o _ _ _ _ _ Hin) as HF. pose proof ann_t. pose proof ann_solidity.
  unfold t, loading_t. apply Rmult_le_pos; [apply Rmult_le_pos; lra|]. left. apply Rinv_0_lt_compat.
  apply Rmult_lt_0_compat; [apply Rmult_lt_0_compat|]; lra.
Qed.

Hypothesis Heq : inductionFactors o B r chord Rhub Rtip phi cl cd Vx Vy = (0, a, ap).

Lemma ann_solved : a = axial_pos k F /\ a < 1 /\ (wakerotation o = true -> t <> 1) /\ 0 <= ap /\ sin phi * (Vy * (1 + ap)) = cos phi * (Vx * (1 - a)).
Proof.
  destruct ann_trig as [Hs Hc]. pose proof ann_k as Hk. pose proof ann_tpos as Ht.
  pose proof (a_below_one o B r chord Rhub Rtip phi cl cd Vx Vy 0 a ap Hin Heq ltac:(fold k; lra)) as (Ha & _).
  pose proof Heq as E. rewrite ind_pos, kp_spec in E by (assumption || lra). fold k F t in E.
  injection E; clear E; intros Eap Ea Ez. rewrite Ea in Ez.
  set (kp := if wakerotation o then t else 0) in *.
  assert (Hl : 0 < Vy / Vx) by (apply Rdiv_lt_0_compat; lra).
  assert (P : 0 < sin phi / (1 - a)) by (apply Rdiv_lt_0_compat; lra).
  assert (P2 : 0 < cos phi / (Vy / Vx)) by (apply Rdiv_lt_0_compat; lra).
  assert (Hkp : 0 < 1 - kp) by (apply Rmult_lt_reg_l with (cos phi / (Vy / Vx)); [exact P2|]; rewrite Rmult_0_r; lra).
  assert (Hkp0 : 0 <= kp) by (unfold kp; destruct (wakerotation o); lra).
  assert (Hap' : 1 + ap = 1 / (1 - kp)).
  { rewrite <- Eap. unfold kp in *. destruct (wakerotation o); field; lra. }
  split; [symmetry; exact Ea|]. split; [exact Ha|]. split; [intros Hw; unfold kp in Hkp; rewrite Hw in Hkp; lra|]. split.
  - assert (1 <= 1 / (1 - kp)); [|lra]. apply Rmult_le_reg_r with (1 - kp); [lra|]. replace (1 / (1 - kp) * (1 - kp)) with 1 by (field; lra). lra.
  - rewrite Hap'. assert (E : sin phi / (1 - a) = cos phi / (Vy / Vx) * (1 - kp)) by lra.
    assert (E2 : sin phi = cos phi / (Vy / Vx) * (1 - kp) * (1 - a)) by (rewrite <- E; field; lra).
    rewrite E2 at 1. field. repeat split; lra.
Qed.

Lemma ann_W pitch theta rho mu alpha W Re : relativeWind phi a ap Vx Vy pitch chord theta rho mu = (alpha, W, Re) ->
  0 < W /\ W * sin phi = Vx * (1 - a) /\ W * cos phi = Vy * (1 + ap).
Proof.
  intros HW. destruct ann_trig as [Hs Hc]. destruct ann_solved as (_ & Ha & _ & Hap & Hpar).
  set (rh := Vx * (1 - a) / sin phi).
  assert (Hr1 : rh * sin phi = Vx * (1 - a)) by (unfold rh; field; lra).
  assert (Hr2 : rh * cos phi = Vy * (1 + ap)).
  { unfold rh. apply Rmult_eq_reg_l with (sin phi); [|lra]. rewrite Hpar. field. lra. }
  assert (Hr : 0 < rh) by (apply Rdiv_lt_0_compat; [apply Rmult_lt_0_compat; lra|exact Hs]).
  assert (E : W = rh).
  { unfold relativeWind in HW. injection HW; intros _ HW' _. clear HW.
    cbn [ofR nadd nsub nmul ndiv nsqrt nsin ncos nabs nlt R_arith] in HW'. rewrite <- HW'.
    rb_if; [|rb_if].
    - rewrite <- Hr2. field. lra.
    - reflexivity.
    - rewrite <- Hr1, <- Hr2.
      replace (rh * sin phi * (rh * sin phi) + rh * cos phi * (rh * cos phi))
        with (Rsqr rh * (Rsqr (sin phi) + Rsqr (cos phi))) by (unfold Rsqr; ring).
      rewrite sin2_cos2, Rmult_1_r. apply sqrt_Rsqr. lra. }
  rewrite E. auto.
Qed.

Lemma annulus_power rho pitch theta mu alpha W Re : 0 <= rho ->
  relativeWind phi a ap Vx Vy pitch chord theta rho mu = (alpha, W, Re) ->
  INR B * Vy * ((cl * sin phi - cd * cos phi) * (1 / 2 * rho * (W * W)) * chord) <= 16 / 27 * (1 / 2 * rho * Vx ^ 3) * (2 * PI * r).
Proof.
  intros Hrho HW. destruct ann_trig as [Hs Hc]. destruct ann_solved as (Ea & Ha & _ & Hap & _).
  destruct (ann_W _ _ _ _ _ _ _ HW) as (W0 & W1 & W2). destruct ann_n as [Hn Hnt]. pose proof ann_solidity as Hsg.
  pose proof (lossF_unit o _ _ _ _ _ Hin) as HF. pose proof (power_factor k F HF ann_k) as PF. rewrite <- Ea in PF.
  set (ct := cl * sin phi - cd * cos phi) in *. set (cn := coef_n (useCd o) cl cd phi) in *.
  assert (Hr : 0 < r) by (destruct Hin as (_ & (H1 & H2) & _); lra). pose proof PI_RGT_0 as HPI.
  replace (INR B * Vy * (ct * (1 / 2 * rho * (W * W)) * chord)) with (1 / 2 * rho * (2 * PI * r) * (solidity B chord r * (Vy * ct) * W ^ 2))
    by (unfold solidity; field; lra).
  replace (16 / 27 * (1 / 2 * rho * Vx ^ 3) * (2 * PI * r)) with (1 / 2 * rho * (2 * PI * r) * (16 / 27 * Vx ^ 3)) by ring.
  apply Rmult_le_compat_l; [apply Rmult_le_pos; [lra|apply Rmult_le_pos; lra]|].
  assert (V1 : Vy <= W * cos phi) by (rewrite W2; nra).
  assert (V2 : Vy * ct <= W * (cn * sin phi)).
  { apply Rle_trans with (W * cos phi * ct); [apply Rmult_le_compat_r; lra|]. rewrite Rmult_assoc. apply Rmult_le_compat_l; [lra|]. lra. }
  apply Rle_trans with (solidity B chord r * (W * (cn * sin phi)) * W ^ 2).
  - apply Rmult_le_compat_r; [apply pow2_ge_0|]. apply Rmult_le_compat_l; assumption.
  - replace (solidity B chord r * (W * (cn * sin phi)) * W ^ 2) with (4 * F * k * (1 - a) ^ 3 * Vx ^ 3).
    + apply Rmult_le_compat_r; [apply pow_le; lra|exact PF].
    + replace (4 * F * k * (1 - a) ^ 3 * Vx ^ 3) with (4 * F * k * (Vx * (1 - a)) ^ 3) by ring. rewrite <- W1.
      unfold k, loading. fold cn. fold F. field. unfold F. split; lra.
Qed.
End Annulus.
