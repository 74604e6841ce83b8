(** Thrust and power of one annulus (C103). *)
From Coquelicot Require Import Coquelicot.
From Coq Require Import Reals Bool Arith List Lra Lia Psatz.
From Verif Require Import Prelim Num Bem Blade IndSpec IndProofs FlProofs BladeSpec StationProofs StationLoads StationExist BladeProofs InverseForward BetzSpec BetzProofs BetzStation.
Open Scope R_scope.

(** Empirical thrust coefficient: at most 2. *)
Lemma thrust_factor k F : 0 < F <= 1 -> 0 <= k -> 4 * F * k * (1 - axial_pos k F) ^ 2 <= 2.
Proof.
  intros HF Hk. destruct (Rle_lt_dec k (2 / 3)) as [H|H].
  - rewrite axial_low by exact H. set (x := 1 - k / (1 + k)). assert (Ex : x * (1 + k) = 1) by (unfold x; field; lra).
    assert (Hx : 0 < x) by nra. assert (E : 4 * F * k * x ^ 2 = F * (4 * (1 - x) * x)).
    { replace (1 - x) with (k * x) by (rewrite <- Ex; ring). ring. }
    rewrite E. assert (0 <= (x - 1 / 2) ^ 2) by apply pow2_ge_0. assert (4 * (1 - x) * x <= 1) by nra. nra.
  - destruct (Rlt_le_dec (Rabs (band F k)) (1 / 1000000)) as [Hb|Hb].
    + rewrite axial_band by assumption.
      pose proof (g2_gt k F H ltac:(lra)) as Hg. pose proof (sqrt_g2_gt k F H ltac:(lra)) as Hq.
      assert (Hbf := band_factor k F ltac:(nra)). set (q := sqrt (g2 k F)) in *.
      apply Rabs_def2 in Hb. destruct Hb as [Hb1 Hb2].
      assert (E : 2 * F * k = 2 * (5 / 3 - F) - 5 / 9 + band F k) by (unfold band; lra).
      assert (Hu : - (1 / 100000) < q - (5 / 3 - F) < 1 / 100000).
      { assert (Hs : 1 / 2 < q + (5 / 3 - F)) by lra. set (d := q - (5 / 3 - F)) in *. set (s := q + (5 / 3 - F)) in *. rewrite Hbf in Hb1, Hb2. split; nra. }
      assert (Hq8 : 83 / 100 < q) by lra.
      replace (1 - (1 - 1 / 2 / q)) with (1 / 2 / q) by ring.
      replace (4 * F * k * (1 / 2 / q) ^ 2) with (2 * F * k / (2 * q ^ 2)) by (field; lra).
      assert (P : 0 < 2 * q ^ 2) by (apply Rmult_lt_0_compat; [lra|apply pow_lt; lra]).
      apply Rmult_le_reg_r with (2 * q ^ 2); [exact P|]. unfold Rdiv at 1. rewrite Rmult_assoc, Rinv_l, Rmult_1_r by lra. rewrite E. nra.
    + pose proof (axial_high_bounds k F H HF Hb) as Ha. rewrite axial_high in * by assumption.
      pose proof (g2_gt k F H ltac:(lra)) as Hg. pose proof (sqrt_g2_gt k F H ltac:(lra)) as Hq.
      assert (HB : buhl_CT F (1 - 1 / (sqrt (g2 k F) + 5 / 3 - F)) = 4 * F * k * (1 - (1 - 1 / (sqrt (g2 k F) + 5 / 3 - F))) ^ 2).
      { apply buhl_exact; [|lra]. replace (sqrt (g2 k F) + 5 / 3 - F - (5 / 3 - F)) with (sqrt (g2 k F)) by ring.
        simpl. rewrite Rmult_1_r. apply sqrt_g2_sqr. nra. }
      set (a := 1 - 1 / (sqrt (g2 k F) + 5 / 3 - F)) in *. rewrite <- HB. unfold buhl_CT.
      assert (0 <= (1 - F) * (a * (1 - a))) by (apply Rmult_le_pos; [lra|apply Rmult_le_pos; lra]). nra.
Qed.

Lemma axial_sign k F : 0 < F <= 1 -> - 1 < k -> (0 <= k -> 0 <= axial_pos k F) /\ (k <= 0 -> axial_pos k F <= 0).
Proof.
  intros HF Hk. split; intros H.
  - destruct (Rle_lt_dec k (2 / 3)) as [L|L].
    + rewrite axial_low by exact L. apply Rmult_le_pos; [exact H|]. left. apply Rinv_0_lt_compat. lra.
    + destruct (Rlt_le_dec (Rabs (band F k)) (1 / 1000000)) as [Hb|Hb].
      * rewrite axial_band by assumption. pose proof (sqrt_g2_gt k F L ltac:(lra)) as Hq. pose proof (g2_gt k F L ltac:(lra)) as Hg.
        assert (Hbf := band_factor k F ltac:(nra)). set (q := sqrt (g2 k F)) in *. apply Rabs_def2 in Hb.
        assert (Hs : 1 / 2 < q + (5 / 3 - F)) by lra. set (d := q - (5 / 3 - F)) in *. assert (- (1 / 100000) < d) by (rewrite Hbf in Hb; nra).
        assert (Hq5 : 1 / 2 < q) by (unfold d in *; lra).
        assert (1 / 2 / q <= 1); [|lra]. apply Rmult_le_reg_r with q; [lra|]. replace (1 / 2 / q * q) with (1 / 2) by (field; lra). lra.
      * pose proof (axial_high_bounds k F L HF Hb). lra.
  - rewrite axial_low by lra. assert (0 <= - k / (1 + k)) by (apply Rmult_le_pos; [lra|]; left; apply Rinv_0_lt_compat; lra).
    replace (k / (1 + k)) with (- (- k / (1 + k))) by (field; lra). lra.
Qed.

Section Annulus.
Variables (o : bemopts) (B : nat) (r chord Rhub Rtip phi cl cd Vx Vy a ap : R).
Hypothesis Hin : inside B r Rhub Rtip phi.
Hypothesis Hphi : phi < PI / 2.
Hypothesis HVx : 0 < Vx.
Hypothesis HVy : 0 < Vy.
Hypothesis Hch : 0 <= chord.
Hypothesis Hcd : 0 <= cd.

Let k := loading o B r chord Rhub Rtip phi cl cd.
Let F := lossF o B r Rhub Rtip phi.
Let t := loading_t o B r chord Rhub Rtip phi cl cd.
Let N := cl * cos phi + cd * sin phi.
Let T := cl * sin phi - cd * cos phi.

Lemma th_trig : 0 < sin phi /\ 0 < cos phi.
Proof. destruct Hin as (_ & _ & _ & H). split; [apply sin_gt_0|apply cos_gt_0]; lra. Qed.

Lemma th_signs : (0 <= cl -> 0 <= k) /\ (cl < 0 -> t <= 0) /\ (0 <= cl -> 0 < T -> 0 <= t) /\ (cl < 0 -> N < 0 -> k <= 0) /\ (k < 0 -> cl < 0) /\ (useCd o = true -> 0 < N -> 0 <= k).
Proof.
  destruct th_trig as [Hs Hc]. pose proof (lossF_unit o _ _ _ _ _ Hin) as HF.
  pose proof (ann_solidity B r chord Rhub Rtip phi Hin Hch) as Hg.
  assert (D1 : 0 < / (4 * lossF o B r Rhub Rtip phi * sin phi ^ 2)) by (apply Rinv_0_lt_compat, Rmult_lt_0_compat; [lra|apply pow_lt; lra]).
  assert (D2 : 0 < / (4 * lossF o B r Rhub Rtip phi * sin phi * cos phi)) by (apply Rinv_0_lt_compat, Rmult_lt_0_compat; [apply Rmult_lt_0_compat; lra|lra]).
  assert (Pos : forall x y, 0 <= x -> 0 < y -> 0 <= solidity B chord r * x * y) by (intros; apply Rmult_le_pos; [apply Rmult_le_pos|]; lra).
  assert (Neg : forall x y, x <= 0 -> 0 < y -> solidity B chord r * x * y <= 0).
  { intros x y Hx Hy. pose proof (Pos (- x) y ltac:(lra) Hy). lra. }
  assert (0 <= cd * sin phi) by (apply Rmult_le_pos; lra). assert (0 <= cd * cos phi) by (apply Rmult_le_pos; lra).
  assert (Cp : 0 <= cl -> 0 <= cl * sin phi /\ 0 <= cl * cos phi) by (intros; split; apply Rmult_le_pos; lra).
  assert (Cn : cl < 0 -> cl * sin phi < 0 /\ cl * cos phi < 0) by (intros; split; nra).
  assert (K1 : 0 <= cl -> 0 <= k).
  { intros H'. apply Pos; [|exact D1]. specialize (Cp H'). unfold coef_n. destruct (useCd o); lra. }
  refine (conj K1 (conj _ (conj _ (conj _ (conj _ _))))).
  - intros H'. apply Neg; [|exact D2]. specialize (Cn H'). unfold coef_t. destruct (useCd o); lra.
  - intros H' HT. apply Pos; [|exact D2]. specialize (Cp H'). unfold T in HT. unfold coef_t. destruct (useCd o); lra.
  - intros H' HN. apply Neg; [|exact D1]. specialize (Cn H'). unfold N in HN. unfold coef_n. destruct (useCd o); lra.
  - intros H'. destruct (Rle_lt_dec 0 cl) as [L|L]; [specialize (K1 L); lra|exact L].
  - intros Eu HN. apply Pos; [|exact D1]. unfold N in HN. unfold coef_n. rewrite Eu. lra.
Qed.

Section Solved.
Hypothesis Hk : - 1 < k.
Hypothesis Heq : inductionFactors o B r chord Rhub Rtip phi cl cd Vx Vy = (0, a, ap).

Lemma th_solved : a = axial_pos k F /\ a < 1 /\ (wakerotation o = true -> t <> 1) /\ 0 < 1 + ap /\ (0 <= t -> 0 <= ap) /\ (t <= 0 -> ap <= 0) /\
  sin phi * (Vy * (1 + ap)) = cos phi * (Vx * (1 - a)).
Proof.
  destruct th_trig as [Hs Hc].
  pose proof (a_below_one o B r chord Rhub Rtip phi cl cd Vx Vy 0 a ap Hin Heq Hk) as (Ha & _).
  pose proof Heq as E. rewrite ind_pos, kp_spec in E by (assumption || lra). fold k F t in E.
  injection E; clear E; intros Eap Ea Ez. rewrite Ea in Ez.
  set (kp := if wakerotation o then t else 0) in *.
  assert (Hl : 0 < Vy / Vx) by (apply Rdiv_lt_0_compat; lra).
  assert (P : 0 < sin phi / (1 - a)) by (apply Rdiv_lt_0_compat; lra).
  assert (P2 : 0 < cos phi / (Vy / Vx)) by (apply Rdiv_lt_0_compat; lra).
  assert (Hkp : 0 < 1 - kp) by (apply Rmult_lt_reg_l with (cos phi / (Vy / Vx)); [exact P2|]; rewrite Rmult_0_r; lra).
  assert (Hap' : 1 + ap = 1 / (1 - kp)).
  { rewrite <- Eap. unfold kp in *. destruct (wakerotation o); field; lra. }
  assert (S1 : 0 <= kp -> 0 <= ap).
  { intros H. assert (1 <= 1 / (1 - kp)); [|lra]. apply Rmult_le_reg_r with (1 - kp); [lra|]. replace (1 / (1 - kp) * (1 - kp)) with 1 by (field; lra). lra. }
  assert (S2 : kp <= 0 -> ap <= 0).
  { intros H. assert (1 / (1 - kp) <= 1); [|lra]. apply Rmult_le_reg_r with (1 - kp); [lra|]. replace (1 / (1 - kp) * (1 - kp)) with 1 by (field; lra). lra. }
  refine (conj (eq_sym Ea) (conj Ha (conj _ (conj _ (conj _ (conj _ _)))))).
  - intros Hw; unfold kp in Hkp; rewrite Hw in Hkp; lra.
  - rewrite Hap'. apply Rdiv_lt_0_compat; lra.
  - intros H. apply S1. unfold kp. destruct (wakerotation o); lra.
  - intros H. apply S2. unfold kp. destruct (wakerotation o); lra.
  - rewrite Hap'. assert (E : sin phi / (1 - a) = cos phi / (Vy / Vx) * (1 - kp)) by lra.
    assert (E2 : sin phi = cos phi / (Vy / Vx) * (1 - kp) * (1 - a)) by (rewrite <- E; field; lra).
    rewrite E2 at 1. field. repeat split; lra.
Qed.

Lemma th_W pitch theta rho mu alpha W Re : relativeWind phi a ap Vx Vy pitch chord theta rho mu = (alpha, W, Re) ->
  0 < W /\ W * sin phi = Vx * (1 - a) /\ W * cos phi = Vy * (1 + ap).
Proof.
  intros HW. destruct th_trig as [Hs Hc]. destruct th_solved as (_ & Ha & _ & Hap & _ & _ & Hpar).
  set (rh := Vx * (1 - a) / sin phi).
  assert (Hr1 : rh * sin phi = Vx * (1 - a)) by (unfold rh; field; lra).
  assert (Hr2 : rh * cos phi = Vy * (1 + ap)).
  { unfold rh. apply Rmult_eq_reg_l with (sin phi); [|lra]. rewrite Hpar. field. lra. }
  assert (Hr : 0 < rh) by (apply Rdiv_lt_0_compat; [apply Rmult_lt_0_compat; lra|exact Hs]).
  assert (E : W = rh).
  { unfold relativeWind in HW. injection HW; intros _ HW' _. clear HW.
    cbn [ofR nadd nsub nmul ndiv nsqrt nsin ncos nabs nlt R_arith] in HW'. rewrite <- HW'.
    rb_if; [|rb_if].
    - rewrite <- Hr2. field. lra.
    - reflexivity.
    - rewrite <- Hr1, <- Hr2.
      replace (rh * sin phi * (rh * sin phi) + rh * cos phi * (rh * cos phi))
        with (Rsqr rh * (Rsqr (sin phi) + Rsqr (cos phi))) by (unfold Rsqr; ring).
      rewrite sin2_cos2, Rmult_1_r. apply sqrt_Rsqr. lra. }
  rewrite E. auto.
Qed.

(** The drag takes power: the air loses at least what the blade gains. *)
Lemma th_energy pitch theta rho mu alpha W Re : relativeWind phi a ap Vx Vy pitch chord theta rho mu = (alpha, W, Re) -> T * Vy <= N * Vx.
Proof.
  intros HW. destruct (th_W _ _ _ _ _ _ _ HW) as (W0 & W1 & W2). destruct th_trig as [Hs Hc].
  destruct th_signs as (G1 & G2 & G3 & G4 & _). destruct th_solved as (Ea & Ha & _ & Hap & P1 & P2 & _).
  pose proof (lossF_unit o _ _ _ _ _ Hin) as HF. destruct (axial_sign k F HF Hk) as (A1 & A2). rewrite <- Ea in A1, A2.
  assert (E : T * (Vy * (1 + ap)) <= N * (Vx * (1 - a))).
  { rewrite <- W1, <- W2. assert (N * (W * sin phi) - T * (W * cos phi) = W * cd).
    { unfold N, T. pose proof (sin2_cos2 phi) as SC. unfold Rsqr in SC. 
      transitivity (W * cd * (sin phi * sin phi + cos phi * cos phi)); [ring|]. rewrite SC. ring. }
    assert (0 <= W * cd) by (apply Rmult_le_pos; lra). lra. }
  assert (0 <= cd * sin phi) by (apply Rmult_le_pos; lra). assert (0 <= cd * cos phi) by (apply Rmult_le_pos; lra).
  destruct (Rle_lt_dec 0 cl) as [L|L].
  - specialize (G1 L). specialize (A1 G1). assert (0 <= cl * cos phi) by (apply Rmult_le_pos; lra). assert (HN : 0 <= N) by (unfold N; lra).
    assert (N * (Vx * (1 - a)) <= N * Vx) by (apply Rmult_le_compat_l; nra).
    destruct (Rle_lt_dec T 0) as [HT|HT]; [assert (0 <= N * Vx) by (apply Rmult_le_pos; lra); nra|].
    specialize (P1 (G3 L HT)). assert (T * Vy <= T * (Vy * (1 + ap))) by (apply Rmult_le_compat_l; nra). lra.
  - assert (cl * sin phi < 0) by nra. assert (HT : T < 0) by (unfold T; lra).
    destruct (Rle_lt_dec 0 N) as [HN|HN]; [assert (0 <= N * Vx) by (apply Rmult_le_pos; lra); nra|].
    specialize (A2 (G4 L HN)). specialize (P2 (G2 L)).
    assert (0 <= (- T) * (Vy * - ap)) by (apply Rmult_le_pos; [lra|apply Rmult_le_pos; lra]).
    assert (0 <= (- N) * (Vx * - a)) by (apply Rmult_le_pos; [lra|apply Rmult_le_pos; lra]). lra.
Qed.

Lemma th_thrust pitch theta rho mu alpha W Re : useCd o = true -> 0 <= rho -> relativeWind phi a ap Vx Vy pitch chord theta rho mu = (alpha, W, Re) ->
  INR B * (N * (1 / 2 * rho * (W * W)) * chord) <= 2 * (1 / 2 * rho * Vx ^ 2) * (2 * PI * r).
Proof.
  intros Eu Hrho HW. destruct (th_W _ _ _ _ _ _ _ HW) as (W0 & W1 & W2). destruct th_trig as [Hs Hc].
  destruct th_solved as (Ea & Ha & _). pose proof (lossF_unit o _ _ _ _ _ Hin) as HF. pose proof PI_RGT_0 as HPI.
  assert (Hr : 0 < r) by (destruct Hin as (_ & (H1 & H2) & _); lra).
  assert (HR : 0 <= 2 * (1 / 2 * rho * Vx ^ 2) * (2 * PI * r)).
  { apply Rmult_le_pos; [|apply Rmult_le_pos; lra]. apply Rmult_le_pos; [lra|]. apply Rmult_le_pos; [lra|apply pow2_ge_0]. }
  destruct (Rle_lt_dec N 0) as [HN|HN].
  { apply Rle_trans with 0; [|exact HR]. pose proof (pos_INR B).
    assert (0 <= INR B * (- N * (1 / 2 * rho * (W * W)) * chord)); [|lra].
    apply Rmult_le_pos; [lra|]. apply Rmult_le_pos; [|lra]. apply Rmult_le_pos; [lra|]. apply Rmult_le_pos; nra. }
  destruct th_signs as (_ & _ & _ & _ & _ & G6). pose proof (thrust_factor k F HF (G6 Eu HN)) as TF. rewrite <- Ea in TF.
  replace (INR B * (N * (1 / 2 * rho * (W * W)) * chord)) with (1 / 2 * rho * (2 * PI * r) * (solidity B chord r * N * W ^ 2))
    by (unfold solidity; field; lra).
  replace (2 * (1 / 2 * rho * Vx ^ 2) * (2 * PI * r)) with (1 / 2 * rho * (2 * PI * r) * (2 * Vx ^ 2)) by ring.
  apply Rmult_le_compat_l; [apply Rmult_le_pos; [lra|apply Rmult_le_pos; lra]|].
  replace (solidity B chord r * N * W ^ 2) with (4 * F * k * (1 - a) ^ 2 * Vx ^ 2); [apply Rmult_le_compat_r; [apply pow2_ge_0|exact TF]|].
  replace (4 * F * k * (1 - a) ^ 2 * Vx ^ 2) with (4 * F * k * (Vx * (1 - a)) ^ 2) by ring. rewrite <- W1.
  unfold k, loading, coef_n. rewrite Eu. fold N. fold F. field. unfold F. split; lra.
Qed.
End Solved.
End Annulus.

(** With floating values: a loading of at most -1 leaves no zero of the residual below 90 degrees. *)
Lemma low_part (sf kf Ff : fl) s k F : rep sf s -> rep kf k -> rep Ff F -> 0 < F <= 1 -> 0 < s -> k <= - 1 ->
  exists x, rep (fdiv sf (fsub (Fin 1) (axial_pos kf Ff))) x /\ x <= 0.
Proof.
  intros Rs Rk RF HF Hs Hk. destruct Hk as [Hk|Hk].
  - assert (K1 : 1 + k <> 0) by lra. pose proof (axial_transfer _ _ _ _ Rk RF HF K1) as Ra. rewrite axial_low in Ra by lra.
    assert (E : 1 - k / (1 + k) = / (1 + k)) by (field; lra). assert (Hn : / (1 + k) < 0) by (apply Rinv_lt_0_compat; lra).
    exists (s / (1 - k / (1 + k))). split; [apply rep_div; [exact Rs|apply rep_sub; [apply rep_Fin|exact Ra]|lra]|].
    rewrite E. unfold Rdiv. rewrite Rinv_inv. nra.
  - exists 0. split; [|lra]. subst k. unfold axial_pos. cbn [nmul ndiv nsub nadd nopp nabs nsqrt nle nlt ofR fl_arith].
    assert (R23 : rep (fdiv (Fin 2) (Fin 3)) (2 / 3)) by (apply rep_div; try apply rep_Fin; lra).
    rewrite (rep_le _ _ _ _ Rk R23). replace (rleb (- 1) (2 / 3)) with true by (symmetry; apply rleb_true; lra).
    destruct (rep_inv _ _ Rk) as [K|[K1 K2]]; [|exfalso; lra]. rewrite K.
    cbn [fadd fdiv iszero]. replace (reqb (1 + -1) 0) with true by (symmetry; apply reqb_true; lra). replace (reqb (-1) 0) with false by (symmetry; apply reqb_false; lra).
    unfold isneg. replace (rltb (-1) 0) with true by (symmetry; apply rltb_true; lra). replace (rltb (1 + -1) 0) with false by (symmetry; apply rltb_false; lra).
    cbn [xorb inf_s fsub fadd fneg]. destruct (rep_inv _ _ Rs) as [->|[-> _]]; cbn [fdiv]; apply rep_zero_s.
Qed.

Lemma fzero_form o B (r chord Rhub Rtip phi cl cd Vx Vy : fl) : nlt (ofR 0) phi = true ->
  out_fzero (inductionFactors o B r chord Rhub Rtip phi cl cd Vx Vy) =
  fsub (fdiv (l_sphi (bem_locals o B r chord Rhub Rtip phi cl cd)) (fsub (Fin 1) (axial_pos (l_k (bem_locals o B r chord Rhub Rtip phi cl cd)) (l_F (bem_locals o B r chord Rhub Rtip phi cl cd)))))
    (fmul (fdiv (l_cphi (bem_locals o B r chord Rhub Rtip phi cl cd)) (fdiv Vy Vx)) (fsub (Fin 1) (if negb (wakerotation o) then Fin 0 else l_kp (bem_locals o B r chord Rhub Rtip phi cl cd)))).
Proof. intros H. unfold out_fzero, inductionFactors. cbn [fst snd]. rewrite H. reflexivity. Qed.

Lemma no_zero_below o B r chord Rhub Rtip phi cl cd Vx Vy cl' cd' : inside B r Rhub Rtip phi -> phi < PI / 2 -> 0 < Vx -> 0 < Vy -> 0 <= chord ->
  rep cl' cl -> rep cd' cd -> 0 <= cd -> loading o B r chord Rhub Rtip phi cl cd <= - 1 ->
  ~ rep (out_fzero (inductionFactors o B (Fin r) (Fin chord) (Fin Rhub) (Fin Rtip) (Fin phi) cl' cd' (Fin Vx) (Fin Vy))) 0.
Proof.
  intros Hin Hphi HVx HVy Hch Qcl Qcd Hcd Hk Z.
  destruct (th_trig B r Rhub Rtip phi Hin Hphi) as [Hs Hc].
  destruct (th_signs o B r chord Rhub Rtip phi cl cd Hin Hphi Hch Hcd) as (_ & G2 & _ & _ & G5 & _).
  assert (Hk0 : loading o B r chord Rhub Rtip phi cl cd < 0) by lra. specialize (G2 (G5 Hk0)). assert (Hc0 : cos phi <> 0) by lra.
  pose proof (locals_transfer o B r chord Rhub Rtip phi cl cd _ _ _ _ _ _ _ (rep_Fin r) (rep_Fin chord) (rep_Fin Rhub) (rep_Fin Rtip) (rep_Fin phi) Qcl Qcd Hin Hc0) as [Rs Rc RF Rk Rkp].
  pose proof (lossF_unit o _ _ _ _ _ Hin) as HFu.
  rewrite (k_spec o B r chord Rhub Rtip phi cl cd Hin) in Rk. rewrite (kp_spec o B r chord Rhub Rtip phi cl cd Hin Hc0) in Rkp.
  destruct Hin as (HB & (H1 & H2) & H3 & H4). rewrite l_F_spec in RF by lra.
  rewrite fzero_form in Z by (exact (proj2 (rltb_true 0 phi) (proj1 H4))).
  unfold bem_locals at 2 in Rs. unfold bem_locals at 2 in Rc. cbn [l_sphi l_cphi nsin ncos R_arith] in Rs, Rc.
  set (L := bem_locals o B (Fin r) (Fin chord) (Fin Rhub) (Fin Rtip) (Fin phi) cl' cd') in *. clearbody L.
  destruct (low_part _ _ _ _ _ _ Rs Rk RF HFu Hs Hk) as (x & R1 & Hx).
  assert (Hl : 0 < Vy / Vx) by (apply Rdiv_lt_0_compat; lra). assert (Hl0 : Vy / Vx <> 0) by lra. assert (Vx0 : Vx <> 0) by lra.
  pose proof (rep_div _ _ _ _ (rep_Fin Vy) (rep_Fin Vx) Vx0) as Rl.
  assert (P2 : 0 < cos phi / (Vy / Vx)) by (apply Rdiv_lt_0_compat; lra).
  assert (RK : exists y, rep (if negb (wakerotation o) then Fin 0 else l_kp L) y /\ y <= 0).
  { destruct (wakerotation o); cbn [negb]; [eexists; split; [exact Rkp|exact G2]|exists 0; split; [apply rep_Fin|lra]]. }
  destruct RK as (y & RK & Hy).
  pose proof (rep_fun _ _ _ Z (rep_sub _ _ _ _ R1 (rep_mul _ _ _ _ (rep_div _ _ _ _ Rc Rl Hl0) (rep_sub _ _ _ _ (rep_Fin 1) RK)))) as E.
  assert (0 < cos phi / (Vy / Vx) * (1 - y)) by (apply Rmult_lt_0_compat; lra). lra.
Qed.
