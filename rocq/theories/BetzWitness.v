(** Rotors with constant lift for the Betz limit: inflow angle of 45 degrees (C101) and of 135 degrees (C102). *)
From Coquelicot Require Import Coquelicot.
From Coq Require Import Reals Bool Arith List Lra Lia Psatz.
From Verif Require Import Prelim Num Bem BemGeomProofs IndSpec IndProofs Blade BladeSpec FlProofs StationProofs StationWitness StationExist StationLoads BladeProofs
  SectorProofs SimilaritySpec SymmetryProofs SectorWitness InverseForward InverseWitness BetzSpec BetzStation BetzRotor InterpSpec ConstructProofs CSystemSpec IdealRoot.
Import ListNotations.
Open Scope R_scope.

(** Constant lift coefficient C, no drag. *)
Definition lift_af (C : R) : airfoil fl := fun _ _ => (Fin C, Fin 0).

(** Drag in the induction, no corrections. *)
Definition plain : bemopts := mkOpts true false false false.

Lemma PI_below : PI < 38 / 10.
Proof.
  destruct (Rlt_le_dec PI (38 / 10)) as [H|H]; [exact H|exfalso].
  assert (C : 0 <= cos (19 / 10)) by (apply cos_ge_0; lra).
  destruct (pre_cos_bound (19 / 10) 0 ltac:(lra) ltac:(lra)) as [_ U].
  unfold cos_approx, cos_term in U. cbn [sum_f_R0 Nat.mul Nat.add fact INR pow] in U. simpl in U. lra.
Qed.

Section Lift.
Variables (B : nat) (r chord C Rhub Rtip rho mu t p lam : R).
Hypothesis HB : (1 <= B)%nat.
Hypothesis Hh : 0 < Rhub < r.
Hypothesis Ht : r < Rtip.
Hypothesis Hlam : 0 < lam.
Let rt := mkRotor (Fin Rhub) (Fin Rtip) B (Fin rho) (Fin mu) plain 1 (Fin p).
Let sc := mkSect (Fin r) (Fin chord) (Fin t) (lift_af C) (Fin 1) (Fin lam).
Let A := solidity B chord r * C / 4.
Let k phi := A * cos phi / sin phi ^ 2.

Lemma lift_pass phi : exists al W Re, bem_loop rt sc (Fin phi) 0 =
  (let '(fz, a, ap) := inductionFactors plain B (Fin r) (Fin chord) (Fin Rhub) (Fin Rtip) (Fin phi) (Fin C) (Fin 0) (Fin 1) (Fin lam) in (fz, a, ap, Fin C, Fin 0)) /\
  relativeWind (Fin phi) (Fin 0) (Fin 0) (Fin 1) (Fin lam) (Fin p) (Fin chord) (Fin t) (Fin rho) (Fin mu) = (al, W, Re).
Proof.
  cbn [bem_loop]. unfold bem_pass. cbn [rt sc s_Vx s_Vy s_theta s_chord s_r s_af rt_pitch rt_rho rt_mu rt_opts rt_B rt_Rhub rt_Rtip ofR fl_arith].
  destruct (relativeWind _ _ _ _ _ _ _ _ _ _) as ((al & W) & Re). do 3 eexists. split; [|reflexivity]. unfold lift_af.
  destruct (inductionFactors _ _ _ _ _ _ _ _ _ _ _) as ((fz & a) & ap). reflexivity.
Qed.

Lemma lift_errf phi : errf rt sc 0 (Fin phi) =
  out_fzero (inductionFactors plain B (Fin r) (Fin chord) (Fin Rhub) (Fin Rtip) (Fin phi) (Fin C) (Fin 0) (Fin 1) (Fin lam)).
Proof.
  unfold errf. destruct (lift_pass phi) as (al & W & Re & -> & _). destruct (inductionFactors _ _ _ _ _ _ _ _ _ _ _) as ((fz & a) & ap). reflexivity.
Qed.

(** Windmill side of the loading: residual and induction, also beyond 90 degrees. *)
Lemma lift_low phi : 0 < phi < PI -> k phi <= 2 / 3 ->
  exists fz a ap, inductionFactors plain B (Fin r) (Fin chord) (Fin Rhub) (Fin Rtip) (Fin phi) (Fin C) (Fin 0) (Fin 1) (Fin lam) = (fz, a, ap) /\
    rep fz (sin phi * (1 + k phi) - cos phi / lam) /\ rep ap 0 /\ (1 + k phi <> 0 -> rep a (k phi / (1 + k phi))).
Proof.
  intros Hphi Hk. pose proof PI_RGT_0 as HP. assert (Hs : 0 < sin phi) by (apply sin_gt_0; lra).
  assert (Ep : nlt (ofR 0) (Fin phi) = true) by (cbn; apply rltb_true; lra).
  unfold inductionFactors. rewrite Ep. cbn [wakerotation plain negb].
  change (l_k ?L) with (ndiv (ndiv (ndiv (ndiv (nmul (l_sigma_p L) (l_cn L)) (ofR 4)) (l_F L)) (l_sphi L)) (l_sphi L)).
  unfold bem_locals. cbn [tipLoss hubLoss useCd plain negb l_sigma_p l_cn l_ct l_F l_sphi l_cphi nmul ndiv nsub nadd nsin ncos ofR fl_arith].
  set (s' := fsin (Fin phi)). set (c' := fcos (Fin phi)).
  assert (Rs : rep s' (sin phi)) by apply rep_sin, rep_Fin.
  assert (Rc : rep c' (cos phi)) by apply rep_cos, rep_Fin.
  assert (Rsig : rep (fdiv (fmul (fdiv (fdiv (Fin (INR B)) (Fin 2)) (Fin PI)) (Fin chord)) (Fin r)) (solidity B chord r)).
  { replace (solidity B chord r) with (INR B / 2 / PI * chord / r) by (unfold solidity; field; lra).
    apply rep_div; [|apply rep_Fin|lra]. apply rep_mul; [|apply rep_Fin]. apply rep_div; [|apply rep_Fin|lra]. apply rep_div; try apply rep_Fin; lra. }
  set (sg := fdiv (fmul _ (Fin chord)) (Fin r)) in *.
  assert (RF : rep (fmul (Fin 1) (Fin 1)) (1 * 1)) by (apply rep_mul; apply rep_Fin). set (F := fmul (Fin 1) (Fin 1)) in *.
  assert (Rk : rep (fdiv (fdiv (fdiv (fdiv (fmul sg (fadd (fmul (Fin C) c') (fmul (Fin 0) s'))) (Fin 4)) F) s') s') (k phi)).
  { replace (k phi) with (solidity B chord r * (C * cos phi + 0 * sin phi) / 4 / (1 * 1) / sin phi / sin phi) by (unfold k, A; field; lra).
    repeat (apply rep_div; [|first [assumption | apply rep_Fin]|lra]). apply rep_mul; [assumption|]. apply rep_add; apply rep_mul; first [assumption|apply rep_Fin]. }
  set (k' := fdiv _ s') in *. do 3 eexists. split; [reflexivity|].
  assert (Ea : axial_pos k' F = fdiv k' (fadd (Fin 1) k')).
  { unfold axial_pos. cbn [nle ndiv nadd ofR fl_arith].
    assert (Q23 : rep (fdiv (Fin 2) (Fin 3)) (2 / 3)) by (apply rep_div; try apply rep_Fin; lra). rewrite (rep_le _ _ _ _ Rk Q23).
    replace (rleb (k phi) (2 / 3)) with true by (symmetry; apply rleb_true; exact Hk). reflexivity. }
  change (axial_pos k' F) with (axial_pos k' F) in Ea. rewrite Ea.
  assert (R1k : rep (fadd (Fin 1) k') (1 + k phi)) by (apply rep_add; [apply rep_Fin|exact Rk]).
  assert (Rt : rep (fmul (fdiv c' (fdiv (Fin lam) (Fin 1))) (fsub (Fin 1) (Fin 0))) (cos phi / lam)).
  { replace (cos phi / lam) with (cos phi / (lam / 1) * (1 - 0)) by (field; lra). apply rep_mul; [|apply rep_sub; apply rep_Fin].
    apply rep_div; [exact Rc|apply rep_div; try apply rep_Fin; lra|]. apply Rgt_not_eq. unfold Rdiv. apply Rmult_lt_0_compat; lra. }
  split; [|split; [apply rep_Fin|intros Hn; apply rep_div; assumption]].
  destruct (Req_dec (1 + k phi) 0) as [E|Hn].
  - apply rep_sub; [|exact Rt]. rewrite E. rewrite Rmult_0_r.
    destruct (rep_inv _ _ Rk) as [K|[K1 K2]]; [|exfalso; lra]. rewrite K. replace (k phi) with (-1) by lra.
    cbn [fadd fdiv iszero]. replace (reqb (1 + -1) 0) with true by (symmetry; apply reqb_true; lra). replace (reqb (-1) 0) with false by (symmetry; apply reqb_false; lra).
    unfold isneg. replace (rltb (-1) 0) with true by (symmetry; apply rltb_true; lra). replace (rltb (1 + -1) 0) with false by (symmetry; apply rltb_false; lra).
    cbn [xorb inf_s fsub fadd fneg]. destruct (rep_inv _ _ Rs) as [->|[-> _]]; cbn [fdiv]; apply rep_zero_s.
  - apply rep_sub; [|exact Rt].
    replace (sin phi * (1 + k phi)) with (sin phi / (1 - k phi / (1 + k phi))) by (field; split; [exact Hn|lra]).
    apply rep_div; [exact Rs| |].
    + apply rep_sub; [apply rep_Fin|]. apply rep_div; assumption.
    + replace (1 - k phi / (1 + k phi)) with (/ (1 + k phi)) by (field; exact Hn). apply Rinv_neq_0_compat. exact Hn.
Qed.

Lemma lift_residual phi : 0 < phi < PI -> k phi <= 2 / 3 -> rep (errf rt sc 0 (Fin phi)) (sin phi * (1 + k phi) - cos phi / lam).
Proof. intros H1 H2. rewrite lift_errf. destruct (lift_low phi H1 H2) as (fz & a & ap & -> & Q & _). exact Q. Qed.

(** Below 90 degrees, any loading. *)
Lemma lift_loading phi : loading plain B r chord Rhub Rtip phi C 0 = A * cos phi / sin phi ^ 2.
Proof.
  unfold loading, lossF, coef_n, A. cbn [useCd tipLoss hubLoss plain]. unfold Rdiv. rewrite !Rinv_mult. rewrite !Rinv_1. ring.
Qed.
Lemma lift_windmill phi : 0 < phi < PI -> 0 < cos phi -> 0 <= A ->
  rep (errf rt sc 0 (Fin phi)) (sin phi / (1 - axial_pos (k phi) 1) - cos phi / lam).
Proof.
  intros Hphi Hc HA. rewrite lift_errf. assert (Hin : inside B r Rhub Rtip phi) by (unfold inside; auto).
  assert (Hs : 0 < sin phi) by (apply sin_gt_0; lra).
  assert (Hk : 0 <= k phi) by (unfold k; apply Rmult_le_pos; [apply Rmult_le_pos; lra|left; apply Rinv_0_lt_compat, pow_lt; lra]).
  pose proof (fzero_transfer plain B r chord Rhub Rtip phi C 0 1 lam _ _ _ _ _ _ _ _ _ (rep_Fin _) (rep_Fin _) (rep_Fin _) (rep_Fin _) (rep_Fin _)
     (rep_Fin _) (rep_Fin _) (rep_Fin _) (rep_Fin _) Hin ltac:(lra) ltac:(lra) ltac:(lra) ltac:(rewrite lift_loading; fold (k phi); lra)) as T.
  rewrite ind_pos in T by exact Hin. rewrite lift_loading in T. unfold out_fzero at 2 in T. cbn [fst wakerotation plain] in T. fold (k phi) in T.
  replace (lossF plain B r Rhub Rtip phi) with 1 in T by (unfold lossF; cbn; ring).
  replace (cos phi / lam) with (cos phi / (lam / 1) * (1 - 0)) by (field; lra). exact T.
Qed.

(** Loads at a known angle. *)
Lemma lift_loads v : 0 < v < PI -> k v <= 2 / 3 -> 1 + k v <> 0 -> Rabs (k v / (1 + k v)) <= 10 -> 0 <= rho ->
  exists l N, bind (loads rt (Fin v) true sc) (nan_guard true) = Ok l /\ rep (o_Np l) N /\
    rep (o_Tp l) (C * sin v * (rho / 2 * ((1 / (1 + k v)) ^ 2 + lam ^ 2)) * chord) /\ rep (o_alpha l) (degrees (v - (t + p))) /\
    rep (o_a l) (k v / (1 + k v)) /\ rep (o_ap l) 0.
Proof.
  intros Hv Hk Hk1 Hab Hrho. destruct (lift_low v Hv Hk) as (fz & a & ap & E & _ & Qap & Qa). specialize (Qa Hk1).
  assert (Hs : 0 < sin v) by (apply sin_gt_0; lra).
  unfold loads. cbn [sc s_Vx s_Vy neq ofR fl_arith].
  replace (feq (Fin 1) (Fin 0)) with false by (symmetry; cbn; apply reqb_false; lra).
  replace (feq (Fin lam) (Fin 0)) with false by (symmetry; cbn; apply reqb_false; lra). cbn [negb andb].
  unfold runBEM. change (rt_iterRe rt) with 1%nat. cbv iota. fold sc. destruct (lift_pass v) as (al0 & W0 & Re0 & EP & _). rewrite EP, E. cbn [bind].
  pose proof (alpha_rep v t p) as QA.
  assert (QW : rep (snd (fst (relativeWind (Fin v) a ap (Fin 1) (Fin lam) (Fin p) (Fin chord) (Fin t) (Fin rho) (Fin mu)))) (sqrt ((1 / (1 + k v)) ^ 2 + lam ^ 2))).
  { unfold relativeWind. cbn [fst snd]. cbn [nmul ndiv nsub nadd nabs nsqrt nlt ofR fl_arith].
    rewrite (rep_lt (Fin 10) _ 10 _ (rep_Fin 10) (rep_abs _ _ Qa)), (rep_lt (Fin 10) _ 10 _ (rep_Fin 10) (rep_abs _ _ Qap)).
    replace (rltb 10 (Rabs (k v / (1 + k v)))) with false by (symmetry; apply rltb_false; lra).
    replace (rltb 10 (Rabs 0)) with false by (symmetry; apply rltb_false; rewrite Rabs_R0; lra).
    replace (sqrt ((1 / (1 + k v)) ^ 2 + lam ^ 2)) with
      (sqrt (1 * (1 - k v / (1 + k v)) * (1 * (1 - k v / (1 + k v))) + lam * (1 + 0) * (lam * (1 + 0)))) by (f_equal; field; exact Hk1).
    apply rep_sqrt; [reps|]. pose proof (Rle_0_sqr (1 * (1 - k v / (1 + k v)))). pose proof (Rle_0_sqr (lam * (1 + 0))). unfold Rsqr in *. lra. }
  assert (QAl : fst (fst (relativeWind (Fin v) a ap (Fin 1) (Fin lam) (Fin p) (Fin chord) (Fin t) (Fin rho) (Fin mu))) = nsub (Fin v) (nadd (Fin t) (Fin p))) by reflexivity.
  cbn [sc s_Vx s_Vy s_chord s_theta rt rt_pitch rt_rho rt_mu].
  destruct (relativeWind (Fin v) a ap (Fin 1) (Fin lam) (Fin p) (Fin chord) (Fin t) (Fin rho) (Fin mu)) as ((al & W) & Re). cbn [fst snd] in QW, QAl. subst al.
  cbn [nmul nsub nadd ncos nsin ofR fl_arith]. set (w := sqrt ((1 / (1 + k v)) ^ 2 + lam ^ 2)) in *.
  assert (Ew : w * w = (1 / (1 + k v)) ^ 2 + lam ^ 2).
  { unfold w. apply sqrt_sqrt. pose proof (pow2_ge_0 (1 / (1 + k v))). pose proof (pow2_ge_0 lam). lra. }
  match goal with |- context [mkLoad a ap ?n ?t' _ _ _ _ _ _ _ _] => set (Np := n); set (Tp := t') end.
  assert (QN : rep Np ((C * cos v + 0 * sin v) * (1 / 2 * rho * (w * w)) * chord)) by (unfold Np; reps).
  assert (QT : rep Tp ((C * sin v - 0 * cos v) * (1 / 2 * rho * (w * w)) * chord)) by (unfold Tp; reps).
  cbn [bind]. unfold nan_guard. cbn [o_Np]. change (isnan _) with (isnan Np). rewrite (rep_isnan _ _ QN).
  do 2 eexists. split; [reflexivity|]. cbn [o_Np o_Tp o_alpha o_a o_ap]. split; [exact QN|]. split; [|exact (conj QA (conj Qa Qap))].
  replace (C * sin v * (rho / 2 * ((1 / (1 + k v)) ^ 2 + lam ^ 2)) * chord) with ((C * sin v - 0 * cos v) * (1 / 2 * rho * (w * w)) * chord); [exact QT|].
  rewrite Ew. field. exact Hk1.
Qed.

(** ** Signs of the residual *)
Lemma axial_range x : 0 <= x -> 0 < 1 - axial_pos x 1 <= 1.
Proof.
  intros Hx. destruct (Rle_lt_dec x (2 / 3)) as [H|H].
  - rewrite axial_low by exact H. replace (1 - x / (1 + x)) with (/ (1 + x)) by (field; lra). split; [apply Rinv_0_lt_compat; lra|].
    rewrite <- Rinv_1. apply Rinv_le_contravar; lra.
  - destruct (Rlt_le_dec (Rabs (band 1 x)) (1 / 1000000)) as [Hb|Hb].
    + rewrite axial_band by assumption. pose proof (sqrt_g2_gt x 1 H ltac:(lra)) as Hq. set (q := sqrt (g2 x 1)) in *. replace (1 - (1 - 1 / 2 / q)) with (/ (2 * q)) by (field; lra).
      split; [apply Rinv_0_lt_compat; lra|]. rewrite <- Rinv_1. apply Rinv_le_contravar; lra.
    + pose proof (axial_high_bounds x 1 H ltac:(lra) Hb). lra.
Qed.

Lemma inv_ge x : 0 < x <= 1 -> 1 <= / x.
Proof. intros H. rewrite <- Rinv_1. apply Rinv_le_contravar; lra. Qed.

Lemma half_pos npi phi : 3 < npi < PI -> npi / 2 <= phi < PI / 2 -> 0 <= A -> 2 / 3 <= lam ->
  exists x, rep (errf rt sc 0 (Fin phi)) x /\ 0 < x.
Proof.
  intros Hn Hp HA Hl. assert (Hc : 0 < cos phi) by (apply cos_gt_0; lra). pose proof PI_RGT_0.
  eexists. split; [apply lift_windmill; [lra|exact Hc|exact HA]|].
  destruct (half_trig npi Hn) as ((C2 & C3) & S2 & S3).
  assert (cos phi <= cos (npi / 2)) by (apply cos_decr_1; lra). assert (sin (npi / 2) <= sin phi) by (apply sin_incr_1; lra).
  assert (Hk : 0 <= k phi) by (unfold k; apply Rmult_le_pos; [apply Rmult_le_pos; lra|left; apply Rinv_0_lt_compat, pow_lt; lra]).
  pose proof (inv_ge _ (axial_range _ Hk)) as Hi. set (x := / (1 - axial_pos (k phi) 1)) in *.
  assert (E1 : sin phi <= sin phi * x) by nra.
  assert (E2 : / lam <= 3 / 2). { replace (3 / 2) with (/ (2 / 3)) by field. apply Rinv_le_contravar; lra. }
  assert (0 < / lam) by (apply Rinv_0_lt_compat; lra). unfold Rdiv at 1 2. fold x. nra.
Qed.

Lemma eps_value : 1 / 10 <= A -> exists x, rep (errf rt sc 0 (Fin eps)) (sin eps * 2 / 3 + x - cos eps / lam) /\ 0 <= x /\ x ^ 2 = 2 * A * cos eps - sin eps ^ 2 / 3.
Proof.
  intros HA. destruct eps_trig as ((S0 & S1) & C0 & C1). pose proof PI2_1. 
  assert (T := lift_windmill eps ltac:(unfold eps; lra) ltac:(lra) ltac:(lra)). set (s := sin eps) in *. set (c := cos eps) in *.
  assert (Hs2 : 0 < s ^ 2 <= 1 / 1000000000000) by (split; nra).
  assert (Hk : 1000 < k eps).
  { unfold k. fold s c. apply Rmult_lt_reg_r with (s ^ 2); [lra|]. replace (A * c / s ^ 2 * s ^ 2) with (A * c) by (field; lra). nra. }
  assert (Hb : 1 / 1000000 <= Rabs (band 1 (k eps))) by (unfold band; rewrite Rabs_right; lra).
  rewrite axial_high in T by lra.
  pose proof (sqrt_g2_gt (k eps) 1 ltac:(lra) ltac:(lra)) as Hq. set (q := sqrt (g2 (k eps) 1)) in *.
  exists (s * q). split; [|split; [nra|]].
  - replace (s * 2 / 3 + s * q - c / lam) with (s / (1 - (1 - 1 / (q + 5 / 3 - 1))) - c / lam) by (field; split; lra). exact T.
  - replace ((s * q) ^ 2) with (s ^ 2 * (q * q)) by ring. unfold q. rewrite sqrt_g2_sqr by (unfold g2; lra). unfold g2.
    unfold k. fold s c. field. lra.
Qed.

(** ** A root at 135 degrees, found by every root finder that meets the contract *)
Definition q2 : R := 1 / sqrt 2.
Lemma q2_sqr : q2 * q2 = 1 / 2 /\ 7 / 10 < q2 < 72 / 100.
Proof.
  assert (S : sqrt 2 * sqrt 2 = 2) by (apply sqrt_sqrt; lra). assert (P : 0 < sqrt 2) by (apply sqrt_lt_R0; lra).
  assert (E : q2 * q2 = 1 / 2). { unfold q2. replace (1 / sqrt 2 * (1 / sqrt 2)) with (1 / (sqrt 2 * sqrt 2)) by (field; lra). rewrite S. reflexivity. }
  assert (0 < q2) by (unfold q2; apply Rdiv_lt_0_compat; lra). split; [exact E|]. split; nra.
Qed.

Section Back.
Hypothesis Hl : 1 <= lam.
Hypothesis HA : A = q2 * (1 + 1 / lam).

Lemma back_A : 1 / lam <= A /\ 7 / 10 < A /\ 0 < 1 / lam <= 1.
Proof.
  assert (I : 0 < 1 / lam) by (apply Rdiv_lt_0_compat; lra).
  assert (I1 : 1 / lam <= 1). { unfold Rdiv. rewrite Rmult_1_l, <- Rinv_1. apply Rinv_le_contravar; lra. }
  destruct q2_sqr as (_ & Q). set (i := 1 / lam) in *. rewrite HA. repeat split; nra.
Qed.

Let G v := sin v + A * cos v / sin v - cos v * (1 / lam).
Lemma back_residual v : 3 / 2 <= v < PI -> rep (errf rt sc 0 (Fin v)) (G v).
Proof.
  intros Hv. pose proof PI_RGT_0. destruct back_A as (A1 & A2 & A3). assert (Hs : 0 < sin v) by (apply sin_gt_0; lra).
  assert (Hc : cos v <= 1 / 5).
  { destruct (pre_cos_bound (3 / 2) 0 ltac:(lra) ltac:(lra)) as [_ U]. unfold cos_approx, cos_term in U. cbn [sum_f_R0 Nat.mul Nat.add fact INR pow] in U. simpl in U.
    apply Rle_trans with (cos (3 / 2)); [apply cos_decr_1; pose proof PI2_1; lra|lra]. }
  replace (G v) with (sin v * (1 + k v) - cos v / lam) by (unfold G, k; field; lra). apply lift_residual; [lra|].
  assert (A4 : A <= 15 / 10). { destruct q2_sqr as (_ & Q). rewrite HA. set (i := 1 / lam) in *. nra. }
  unfold k. destruct (Rle_lt_dec (cos v) 0) as [C0|C0].
  - apply Rle_trans with 0; [|lra]. unfold Rdiv. assert (0 < / sin v ^ 2) by (apply Rinv_0_lt_compat, pow_lt; lra). assert (A * cos v <= 0) by nra. nra.
  - pose proof (sin2_cos2 v) as SC. unfold Rsqr in SC. assert (S2 : 96 / 100 <= sin v ^ 2) by nra.
    apply Rmult_le_reg_r with (sin v ^ 2); [lra|]. replace (A * cos v / sin v ^ 2 * sin v ^ 2) with (A * cos v) by (field; lra). nra.
Qed.
Lemma G_continuous v : 0 < v < PI -> continuity_pt G v.
Proof.
  intros Hv. assert (Hs : 0 < sin v) by (apply sin_gt_0; lra). apply derivable_continuous_pt. unfold G.
  exists (cos v + (- (A * sin v) * sin v - A * cos v * cos v) / sin v ^ 2 + sin v * (1 / lam)).
  apply is_derive_Reals. auto_derive; [lra|]. field. lra.
Qed.

Lemma back_decreasing x y : PI / 2 <= x -> x < y -> y < PI -> G y < G x.
Proof.
  intros Hx Hxy Hy. pose proof PI_RGT_0. destruct back_A as (A1 & A2 & A3).
  assert (Sx : 0 < sin x) by (apply sin_gt_0; lra). assert (Sy : 0 < sin y) by (apply sin_gt_0; lra).
  assert (S : sin y < sin x) by (apply sin_decreasing_1; lra). assert (C' : cos y < cos x) by (apply cos_decreasing_1; lra).
  assert (Cx : cos x <= 0) by (apply cos_le_0; lra). pose proof (SIN_bound y) as [_ B1].
  assert (I1 : / sin x <= / sin y) by (apply Rinv_le_contravar; lra). pose proof (inv_ge (sin y) ltac:(lra)) as I2.
  unfold G. set (i := 1 / lam) in *. unfold Rdiv. set (ix := / sin x) in *. set (iy := / sin y) in *.
  assert (J1 : A * cos x * iy <= A * cos x * ix). { assert (0 <= - (A * cos x)) by nra. nra. }
  assert (J2 : A * cos y * iy + A * (cos x - cos y) <= A * cos x * iy). { assert (0 <= A * (cos x - cos y)) by (apply Rmult_le_pos; lra). nra. }
  assert (J3 : i * (cos x - cos y) <= A * (cos x - cos y)) by (apply Rmult_le_compat_r; lra). lra.
Qed.

Lemma back_zero : G (3 * (PI / 4)) = 0.
Proof.
  unfold G. rewrite sin_3PI4, cos_3PI4. fold q2. destruct q2_sqr as (Q & Q1). replace (-1 / sqrt 2) with (- q2).
  2:{ unfold q2. field. apply Rgt_not_eq, sqrt_lt_R0. lra. }
  rewrite HA. field. lra.
Qed.

Lemma back_solve npi bq : 3 < npi < PI -> root_inside bq -> finds_zeros bq -> accepts_continuous bq ->
  solve npi bq (errf rt sc 0) = Ok (Fin (3 * (PI / 4))).
Proof.
  intros Hn Hb Hz Ha. set (f := errf rt sc 0). pose proof PI_below as HPb. destruct back_A as (A1 & A2 & A3).
  assert (HA0 : 0 <= A) by lra.
  assert (Pe : pos (f (Fin (1 / 1000000)))).
  { destruct (eps_value ltac:(lra)) as (x & Q & X1 & X2). eapply rep_pos; [exact Q|].
    destruct eps_trig as ((S0 & S1) & C0 & C1). unfold Rdiv at 2. replace (/ lam) with (1 / lam) by (field; lra). set (i := 1 / lam) in *. set (s := sin eps) in *. set (c := cos eps) in *.
    assert (1 < x ^ 2) by nra. assert (1 < x) by nra. nra. }
  assert (Ph : pos (f (Fin (npi / 2)))).
  { destruct (half_pos npi (npi / 2) Hn ltac:(lra) HA0 ltac:(lra)) as (x & Q & X). eapply rep_pos; eassumption. }
  assert (Pn : pos (f (Fin (- npi / 4)))).
  { set (x := npi / 4). replace (- npi / 4) with (- x) by (unfold x; field). unfold f. rewrite lift_errf.
    assert (Hx : 0 < x < PI / 4) by (unfold x; lra). 
    assert (Sx : 0 < sin x) by (apply sin_gt_0; lra). assert (Cx : 0 < cos x) by (apply cos_gt_0; lra).
    assert (S4 : sin x < q2) by (unfold q2; rewrite <- sin_PI4; apply sin_increasing_1; lra).
    assert (C4 : q2 < cos x) by (unfold q2; rewrite <- cos_PI4; apply cos_decreasing_1; lra).
    eapply rep_pos; [apply residual_neg_rep; try reflexivity; try lra; try (rewrite sin_neg; lra); try (rewrite cos_neg; lra)|].
    cbn [useCd wakerotation plain]. unfold coef_n. rewrite sin_neg, cos_neg.
    replace (- sin x * (1 - solidity B chord r * (C * cos x + 0 * - sin x) / (4 * (- sin x) ^ 2)) - cos x / (lam / 1) * (1 - 0))
      with (/ sin x * (A * cos x - sin x * sin x - sin x * cos x * (1 / lam))) by (unfold A; field; lra).
    apply Rmult_lt_0_compat; [apply Rinv_0_lt_compat; lra|]. rewrite HA. set (i := 1 / lam) in *.
    assert (sin x * cos x * i <= q2 * cos x * i) by (apply Rmult_le_compat_r; [lra|apply Rmult_le_compat_r; lra]). nra. }
  assert (Ns : forall y, pos y -> neg y -> False).
  { intros y [->|(v & -> & H1)] [E|(v' & E & H2)]; try discriminate E. injection E; intros <-. lra. }
  assert (H3 : 3 * (PI / 4) < npi - 1 / 1000000) by lra.
  destruct (documented_bracket_exists npi f) as (lo & hi & D & E). unfold solve. rewrite E.
  destruct D as [HS|HS HN HP|HS HN].
  - exfalso. exact (HS (or_introl (conj Pe Ph))).
  - exfalso. exact (Ns _ Pn HN).
  - assert (Q : exists x, bq f (Fin (npi / 2)) (Fin (npi - 1 / 1000000)) = Ok x).
    { apply (Ha f G); [lra|intros v Hv; apply back_residual; lra|intros v Hv; apply G_continuous; lra|].
      assert (G1 : 0 < G (npi / 2)).
      { destruct (half_pos npi (npi / 2) Hn ltac:(lra) HA0 ltac:(lra)) as (x & Q & X). rewrite (rep_fun _ _ _ (back_residual (npi / 2) ltac:(lra)) Q). exact X. }
      assert (G2 : G (npi - 1 / 1000000) < 0) by (rewrite <- back_zero; apply back_decreasing; lra). nra. }
    destruct Q as (x & Q). rewrite Q. assert (Hle : npi / 2 <= npi - 1 / 1000000) by lra. destruct (Hb _ _ _ _ Hle Q) as (v & -> & Hv). pose proof (Hz _ _ _ _ Q) as Z.
    destruct (Rlt_le_dec v (PI / 2)) as [L|L].
    { exfalso. destruct (half_pos npi v Hn ltac:(lra) HA0 ltac:(lra)) as (x & Q' & X). pose proof (rep_fun _ _ _ Q' Z). lra. }
    pose proof (rep_fun _ _ _ (back_residual v ltac:(lra)) Z) as G0. pose proof back_zero as B0.
    destruct (Rtotal_order v (3 * (PI / 4))) as [O|[->|O]]; [|reflexivity|].
    + exfalso. pose proof (back_decreasing v (3 * (PI / 4)) L O ltac:(lra)). lra.
    + exfalso. pose proof (back_decreasing (3 * (PI / 4)) v ltac:(lra) O ltac:(lra)). lra.
Qed.

Lemma back_station npi bq : 3 < npi < PI -> root_inside bq -> finds_zeros bq -> accepts_continuous bq -> lam <= 9 -> 0 <= rho ->
  exists l N, solve_station npi bq rt true sc = Ok l /\ rep (o_Np l) N /\ rep (o_Tp l) (C * q2 * rho * lam ^ 2 * chord).
Proof.
  intros Hn Hb Hz Ha Hl9 Hrho. pose proof PI_RGT_0. destruct back_A as (A1 & A2 & A3). destruct q2_sqr as (Q & Q1).
  assert (K : k (3 * (PI / 4)) = - (1 + 1 / lam)).
  { unfold k. rewrite sin_3PI4, cos_3PI4. fold q2. replace (-1 / sqrt 2) with (- q2) by (unfold q2; field; apply Rgt_not_eq, sqrt_lt_R0; lra).
    replace (q2 ^ 2) with (1 / 2) by (rewrite <- Q; ring). rewrite HA. replace (q2 * (1 + 1 / lam) * - q2) with (- (q2 * q2) * (1 + 1 / lam)) by ring. rewrite Q. field. lra. }
  destruct (lift_loads (3 * (PI / 4))) as (l & N & E & QN & QT & _); try lra.
  - rewrite K. replace (- (1 + 1 / lam) / (1 + - (1 + 1 / lam))) with (lam + 1) by (field; lra). rewrite Rabs_right; lra.
  - exists l, N. split; [|split; [exact QN|]].
    + unfold solve_station. change (rt_iterRe rt) with 1%nat. cbv iota. rewrite back_solve by assumption. exact E.
    + rewrite K, sin_3PI4 in QT. fold q2 in QT.
      replace (C * q2 * rho * lam ^ 2 * chord) with (C * q2 * (rho / 2 * ((1 / (1 + - (1 + 1 / lam))) ^ 2 + lam ^ 2)) * chord) by (field; lra). exact QT.
Qed.
End Back.

(** ** A root at 45 degrees *)
Section Front.
Hypothesis Hl : 2 / 3 <= lam <= 9 / 10.
Hypothesis HA : A = q2 * (1 / lam - 1).

Lemma front_A : 1 / 15 < A < 1 / 2 /\ 10 / 9 <= 1 / lam <= 3 / 2.
Proof.
  assert (I1 : 10 / 9 <= 1 / lam). { apply Rmult_le_reg_r with lam; [lra|]. replace (1 / lam * lam) with 1 by (field; lra). lra. }
  assert (I2 : 1 / lam <= 3 / 2). { apply Rmult_le_reg_r with lam; [lra|]. replace (1 / lam * lam) with 1 by (field; lra). lra. }
  destruct q2_sqr as (_ & Q). set (i := 1 / lam) in *. rewrite HA. repeat split; nra.
Qed.

Lemma front_residual : rep (errf rt sc 0 (Fin (PI / 4))) 0 /\ k (PI / 4) = 1 / lam - 1.
Proof.
  destruct front_A as (A1 & A2). destruct q2_sqr as (Q & Q1). pose proof PI_RGT_0.
  assert (K : k (PI / 4) = 1 / lam - 1).
  { unfold k. rewrite sin_PI4, cos_PI4. fold q2. rewrite HA. replace (q2 * (1 / lam - 1) * q2 / q2 ^ 2) with (1 / lam - 1) by (field; lra). reflexivity. }
  split; [|exact K]. pose proof (lift_residual (PI / 4) ltac:(lra) ltac:(lra)) as R0. rewrite K, sin_PI4, cos_PI4 in R0. fold q2 in R0.
  replace 0 with (q2 * (1 + (1 / lam - 1)) - q2 / lam) by (field; lra). exact R0.
Qed.

Lemma front_solve npi : 3 < npi < PI -> lam <= 5 / 6 -> solve npi quarter (errf rt sc 0) = Ok (Fin (PI / 4)).
Proof.
  intros Hn Hl6. set (f := errf rt sc 0). pose proof PI_4. destruct front_A as (A1 & A2). destruct front_residual as (Z & _).
  assert (A0 : 1 / 10 <= A). { assert (6 / 5 <= 1 / lam). { apply Rmult_le_reg_r with lam; [lra|]. replace (1 / lam * lam) with 1 by (field; lra). lra. } destruct q2_sqr as (_ & Q). rewrite HA. nra. }
  assert (Ne : neg (f (Fin (1 / 1000000)))).
  { destruct (eps_value A0) as (x & Q & X1 & X2). eapply rep_neg_sign; [exact Q|].
    destruct eps_trig as ((S0 & S1) & C0 & C1). unfold Rdiv at 2. replace (/ lam) with (1 / lam) by (field; lra). set (i := 1 / lam) in *. set (s := sin eps) in *. set (c := cos eps) in *.
    assert (x ^ 2 <= 1) by nra. assert (x <= 1) by nra. nra. }
  assert (Ph : pos (f (Fin (npi / 2)))).
  { destruct (half_pos npi (npi / 2) Hn ltac:(lra) ltac:(lra) ltac:(lra)) as (x & Q & X). eapply rep_pos; eassumption. }
  assert (Ns : forall y, pos y -> neg y -> False).
  { intros y [->|(v & -> & H1)] [E|(v' & E & H2)]; try discriminate E. injection E; intros <-. lra. }
  destruct (documented_bracket_exists npi f) as (lo & hi & D & E). unfold solve. rewrite E.
  assert (NS : ~ same_strict_sign (f (Fin (1 / 1000000))) (f (Fin (npi / 2)))) by (intros [[P1 P2]|[P1 P2]]; [exact (Ns _ P1 Ne)|exact (Ns _ Ph P2)]).
  destruct D as [HS|HS HN HP|HS HN]; [|contradiction|contradiction].
  destruct (quarter_cases f (Fin (1 / 1000000)) (Fin (npi / 2))) as [H'|(H' & _)]; [|rewrite H'; reflexivity].
  exfalso. unfold quarter in H'. cbn [fval] in H'. unfold rep in Z. fold f in Z. rewrite Z in H'.
  replace (reqb 0 0) with true in H' by (symmetry; apply reqb_true; reflexivity).
  replace (rleb (1 / 1000000) (PI / 4)) with true in H' by (symmetry; apply rleb_true; pose proof PI2_1; lra).
  replace (rleb (PI / 4) (npi / 2)) with true in H' by (symmetry; apply rleb_true; lra). discriminate H'.
Qed.

Lemma front_station npi : 3 < npi < PI -> lam <= 5 / 6 -> 0 <= rho ->
  exists l N, solve_station npi quarter rt true sc = Ok l /\ rep (o_Np l) N /\ rep (o_Tp l) (C * q2 * rho * lam ^ 2 * chord) /\ rep (o_alpha l) (degrees (PI / 4 - (t + p))).
Proof.
  intros Hn Hl6 Hrho. pose proof PI_RGT_0. destruct front_A as (A1 & A2). destruct front_residual as (Z & K).
  assert (R0 : Rabs (k (PI / 4) / (1 + k (PI / 4))) <= 10).
  { rewrite K. replace ((1 / lam - 1) / (1 + (1 / lam - 1))) with (1 - lam) by (field; lra). rewrite Rabs_right; lra. }
  destruct (lift_loads (PI / 4)) as (l & N & E & QN & QT & QA & _); try lra.
  exists l, N. split; [|split; [exact QN|split; [|exact QA]]].
  - unfold solve_station. change (rt_iterRe rt) with 1%nat. cbv iota. rewrite front_solve by assumption. exact E.
  - rewrite K, sin_PI4 in QT. fold q2 in QT.
    replace (C * q2 * rho * lam ^ 2 * chord) with (C * q2 * (rho / 2 * ((1 / (1 + (1 / lam - 1))) ^ 2 + lam ^ 2)) * chord) by (field; lra). exact QT.
Qed.
End Front.
End Lift.

(** ** Two-bladed flat rotors with two stations in a wind of speed 1 *)
Definition lift2 : airfoil fl := lift_af (2 * sqrt 2).
Lemma lift2_q2 : 2 * sqrt 2 * q2 = 2.
Proof. unfold q2. field. apply Rgt_not_eq, sqrt_lt_R0. lra. Qed.
Lemma lift2_drags : drags lift2.
Proof. intros al Re. left. exists (2 * sqrt 2), 0. split; [reflexivity|]. split; [reflexivity|lra]. Qed.
Lemma lift2_A chord r m : 0 < r -> chord = PI * r * m -> solidity 2 chord r * (2 * sqrt 2) / 4 = q2 * m.
Proof.
  intros Hr ->. unfold solidity. cbn [INR]. pose proof PI_RGT_0. assert (E := lift2_q2).
  replace (2 * sqrt 2) with (4 * q2). { field. lra. }
  unfold q2. assert (P : 0 < sqrt 2) by (apply sqrt_lt_R0; lra). assert (S : sqrt 2 * sqrt 2 = 2) by (apply sqrt_sqrt; lra).
  apply Rmult_eq_reg_r with (sqrt 2); [|lra]. replace (4 * (1 / sqrt 2) * sqrt 2) with 4 by (field; lra). lra.
Qed.

Definition two_args (r0 r1 c0 c1 hub tip : R) : args :=
  mkArgs [r0; r1] [c0; c1] [0; 0] [lift2; lift2] hub tip 2 1 1 0 0 0 0 80 8 None 0 None 0 plain 1.
Definition two_blade (r0 r1 c0 c1 hub tip : R) : blade :=
  mkBlade [r0; r1] [c0; c1] [Fin 0; Fin 0] [lift2; lift2] hub tip 2 1 1 0 0 0 0 80 plain 1 [0; 0] 0 [0; 0] 0 tip 1 false [] [] [] 0.

Section Two.
Variables r0 r1 c0 c1 hub tip : R.
Hypothesis Hr : 0 < hub < r0.
Hypothesis Hr1 : r0 < r1 < tip.
Let g := two_args r0 r1 c0 c1 hub tip.
Let b := two_blade r0 r1 c0 c1 hub tip.

Lemma two_increasing : increasing [r0; r1].
Proof. intros [|[|i]] [|[|j]] Hij; simpl in *; lra || lia. Qed.
Lemma two_construct : construct g = Ok b.
Proof.
  unfold construct. cbn [g_r g two_args length Nat.ltb Nat.leb g_precurve g_presweep map curve_error tip_error Nat.eqb andb negb].
  cbn [g two_args g_chord g_theta g_af g_Rhub g_Rtip g_B g_rho g_mu g_precone g_tilt g_yaw g_shearExp g_hubHt g_nSector g_precurveTip
       g_presweepTip g_opts g_iterRe hd last map].
  rewrite !radians_0, cos_0, sin_0.
  pose proof (interp_zeros g two_increasing ltac:(simpl; lia) (nd_tip (r_nd [r0; r1]))) as Z.
  cbn [g g_r two_args map] in Z. rewrite Z.
  replace (reqb hub r0) with false by (symmetry; apply reqb_false; lra).
  replace (reqb tip r1) with false by (symmetry; apply reqb_false; lra).
  replace (reqb 0 0) with true by (symmetry; apply reqb_true; reflexivity).
  cbn [andb set_last removelast app]. unfold b, two_blade. replace (tip * 1 + 0 * 0) with tip by ring. reflexivity.
Qed.
Lemma two_disc : flat_disc g.
Proof.
  unfold flat_disc. cbn. refine (conj eq_refl (conj eq_refl (conj eq_refl (conj eq_refl (conj eq_refl (conj eq_refl (conj two_increasing _))))))).
  split; [lra|]. split; [lra|lia].
Qed.
Lemma two_flat : flat b.
Proof. exact (proj1 (flat_construct g b two_construct two_disc)). Qed.

Lemma two_station npi bq Om p az i r c : Om <> 0 -> nth_error [r0; r1] i = Some r -> nth_error [c0; c1] i = Some c ->
  station_i npi bq b p Om (wind b 1 Om az) i =
  bind (solve_station npi bq (mkRotor (Fin hub) (Fin tip) 2 (Fin 1) (Fin 1) plain 1 (Fin p)) true
         (mkSect (Fin r) (Fin c) (Fin 0) lift2 (Fin 1) (Fin (Om * PI / 30 * r)))) (fun l => Ok (Fin 0, l)).
Proof.
  intros HO Hi Hc. assert (Li : (i < 2)%nat) by (change 2%nat with (length [r0; r1]); apply nth_error_Some; rewrite Hi; discriminate).
  destruct (flat_wind b 1 Om az i two_flat Li) as (W1 & W2). change (b_r b) with [r0; r1] in W2. 
  replace (nth i [r0; r1] 0) with r in W2 by (symmetry; exact (nth_error_nth _ _ _ Hi)).
  unfold station_i. cbv zeta. rewrite W1, W2. replace (reqb Om 0) with false by (symmetry; apply reqb_false; exact HO). cbn [negb].
  cbn [b two_blade b_r b_chord b_af b_theta b_inverse]. unfold pyget. rewrite Hi, Hc. destruct i as [|[|i]]; [| |lia]; reflexivity.
Qed.

Lemma two_evaluate npi bq Om p (l0 l1 : sload fl) N0 N1 T0 T1 : Om <> 0 ->
  solve_station npi bq (mkRotor (Fin hub) (Fin tip) 2 (Fin 1) (Fin 1) plain 1 (Fin (radians p))) true (mkSect (Fin r0) (Fin c0) (Fin 0) lift2 (Fin 1) (Fin (Om * PI / 30 * r0))) = Ok l0 ->
  solve_station npi bq (mkRotor (Fin hub) (Fin tip) 2 (Fin 1) (Fin 1) plain 1 (Fin (radians p))) true (mkSect (Fin r1) (Fin c1) (Fin 0) lift2 (Fin 1) (Fin (Om * PI / 30 * r1))) = Ok l1 ->
  rep (o_Np l0) N0 -> rep (o_Np l1) N1 -> rep (o_Tp l0) T0 -> rep (o_Tp l1) T1 ->
  section_loads npi bq b 1 Om p 0 = Ok [l0; l1] /\
  exists b' y w, evaluate npi bq b [(1, Om, p)] = Ok (b', [Some y], w) /\
    y_P y = 2 * (Om * PI / 30) * (T0 * r0 * (r0 - hub) / 2 + (T0 * r0 + T1 * r1) * (r1 - r0) / 2 + T1 * r1 * (tip - r1) / 2).
Proof.
  intros HO S0 S1 QN0 QN1 QT0 QT1.
  assert (SL : forall az, section_loads npi bq b 1 Om p az = Ok [l0; l1]).
  { intros az. unfold section_loads, distributedAeroLoads. change (shapes_ok b) with true. cbn [negb]. cbv zeta.
    change (seq 0 (length (b_r b))) with [0%nat; 1%nat]. cbn [mapM].
    rewrite (two_station npi bq Om (radians p) (radians az) 0 r0 c0 HO eq_refl eq_refl), S0. cbn [bind].
    rewrite (two_station npi bq Om (radians p) (radians az) 1 r1 c1 HO eq_refl eq_refl), S1. reflexivity. }
  split; [apply SL|].
  assert (E : exists b' y w, evaluate npi bq b [(1, Om, p)] = Ok (b', [Some y], w)).
  { rewrite (evaluate_forward npi bq b 1 Om p eq_refl ltac:(cbn; lia)). change (b_nSector b) with 1%nat.
    match goal with |- context [mapM ?F (azimuths 1)] => replace (mapM F (azimuths 1)) with (Ok [[l0; l1]]) end.
    2:{ unfold azimuths. cbn [seq map mapM]. rewrite SL. reflexivity. }
    cbn [bind].
    destruct (fold_finite b (combine (azimuths 1) [[l0; l1]])) with (u := tot0) as (t & ->).
    - unfold azimuths. cbn [seq map combine]. constructor; [|constructor]. exists [N0; N1], [T0; T1]. cbn [snd map]. split; apply fvals_two; assumption.
    - cbn [option_map]. do 3 eexists. reflexivity. }
  destruct E as (b' & y & w & E). exists b', y, w. split; [exact E|].
  destruct (flat_power npi bq b _ _ _ _ 0 _ _ _ _ two_flat E eq_refl eq_refl) as (ls & Np & Tp & SL' & F & ->).
  rewrite SL in SL'. apply ok_inj in SL'. subst ls. inversion F as [|? t0 ? ? F0 F1]; subst. inversion F1 as [|? t1 ? ? F2 F3]; subst. inversion F3; subst.
  assert (t0 = T0) by (unfold rep in *; congruence). assert (t1 = T1) by (unfold rep in *; congruence). subst t0 t1.
  rewrite flat_moment by exact two_flat. change (length (b_r b)) with 2%nat. cbn [Nat.add trapz]. unfold full_r, pad. cbn. field.
Qed.
End Two.

(** ** Beyond 90 degrees *)
Definition back_args : args := two_args 1 2 (2 * PI) (3 * PI) (1 / 2) 3.
Definition back_blade : blade := two_blade 1 2 (2 * PI) (3 * PI) (1 / 2) 3.
Lemma back_power npi bq p : 3 < npi < PI -> root_inside bq -> finds_zeros bq -> accepts_continuous bq ->
  exists b' y w, evaluate npi bq back_blade [(1, 30 / PI, p)] = Ok (b', [Some y], w) /\ y_P y = 102 * PI.
Proof.
  intros Hn Hb Hz Ha. pose proof PI_RGT_0 as HP. pose proof lift2_q2 as LQ.
  assert (HO : 30 / PI <> 0) by (apply Rgt_not_eq, Rdiv_lt_0_compat; lra).
  assert (W0 : 30 / PI * PI / 30 * 1 = 1) by (field; lra). assert (W1 : 30 / PI * PI / 30 * 2 = 2) by (field; lra).
  destruct (back_station 2 1 (2 * PI) (2 * sqrt 2) (1 / 2) 3 1 1 0 (radians p) 1 ltac:(lia) ltac:(lra) ltac:(lra) ltac:(lra) ltac:(lra)
    ltac:(rewrite (lift2_A _ _ 2) by lra; f_equal; lra) npi bq Hn Hb Hz Ha ltac:(lra) ltac:(lra)) as (l0 & N0 & S0 & QN0 & QT0).
  destruct (back_station 2 2 (3 * PI) (2 * sqrt 2) (1 / 2) 3 1 1 0 (radians p) 2 ltac:(lia) ltac:(lra) ltac:(lra) ltac:(lra) ltac:(lra)
    ltac:(rewrite (lift2_A _ _ (3 / 2)) by lra; f_equal; lra) npi bq Hn Hb Hz Ha ltac:(lra) ltac:(lra)) as (l1 & N1 & S1 & QN1 & QT1).
  destruct (two_evaluate 1 2 (2 * PI) (3 * PI) (1 / 2) 3 ltac:(lra) ltac:(lra) npi bq (30 / PI) p l0 l1 N0 N1 _ _ HO
    ltac:(rewrite W0; exact S0) ltac:(rewrite W1; exact S1) QN0 QN1 QT0 QT1) as (_ & b' & y & w & E & EP).
  exists b', y, w. split; [exact E|]. rewrite EP, LQ. field. lra.
Qed.

(** ** At 45 degrees *)
Definition front_args : args := two_args 4 5 (2 * PI) PI 1 6.
Definition front_blade : blade := two_blade 4 5 (2 * PI) PI 1 6.
Lemma front_power npi : 3 < npi < PI ->
  exists l0 l1, section_loads npi quarter front_blade 1 (5 / PI) 0 0 = Ok [l0; l1] /\
    rep (o_alpha l0) 45 /\ rep (o_alpha l1) 45 /\
  exists b' y w, evaluate npi quarter front_blade [(1, 5 / PI, 0)] = Ok (b', [Some y], w) /\ 0 < y_P y.
Proof.
  intros Hn. pose proof PI_RGT_0 as HP. pose proof lift2_q2 as LQ.
  assert (HO : 5 / PI <> 0) by (apply Rgt_not_eq, Rdiv_lt_0_compat; lra).
  assert (W0 : 5 / PI * PI / 30 * 4 = 2 / 3) by (field; lra). assert (W1 : 5 / PI * PI / 30 * 5 = 5 / 6) by (field; lra).
  destruct (front_station 2 4 (2 * PI) (2 * sqrt 2) 1 6 1 1 0 (radians 0) (2 / 3) ltac:(lia) ltac:(lra) ltac:(lra) ltac:(lra) ltac:(lra)
    ltac:(rewrite (lift2_A _ _ (1 / 2)) by lra; f_equal; lra) npi Hn ltac:(lra) ltac:(lra)) as (l0 & N0 & S0 & QN0 & QT0 & QA0).
  destruct (front_station 2 5 PI (2 * sqrt 2) 1 6 1 1 0 (radians 0) (5 / 6) ltac:(lia) ltac:(lra) ltac:(lra) ltac:(lra) ltac:(lra)
    ltac:(rewrite (lift2_A _ _ (1 / 5)) by lra; f_equal; lra) npi Hn ltac:(lra) ltac:(lra)) as (l1 & N1 & S1 & QN1 & QT1 & QA1).
  destruct (two_evaluate 4 5 (2 * PI) PI 1 6 ltac:(lra) ltac:(lra) npi quarter (5 / PI) 0 l0 l1 N0 N1 _ _ HO
    ltac:(rewrite W0; exact S0) ltac:(rewrite W1; exact S1) QN0 QN1 QT0 QT1) as (SL & b' & y & w & E & EP).
  rewrite radians_0 in QA0, QA1. replace (degrees (PI / 4 - (0 + 0))) with 45 in QA0, QA1 by (unfold degrees; field; lra).
  exists l0, l1. split; [exact SL|]. split; [exact QA0|]. split; [exact QA1|]. exists b', y, w. split; [exact E|].
  rewrite EP, LQ. replace (5 / PI * PI / 30) with (1 / 6) by (field; lra). lra.
Qed.
