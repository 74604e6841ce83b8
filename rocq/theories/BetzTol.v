(** The Betz limit when the velocity triangles close only approximately (C109). *)
From Coquelicot Require Import Coquelicot.
From Coq Require Import Reals Bool Arith List Lra Lia Psatz.
From Verif Require Import Prelim Num Bem Blade IndSpec IndProofs FlProofs BladeSpec StationProofs StationLoads StationExist BladeProofs InverseForward
  BetzSpec BetzTolSpec BetzProofs BetzStation ThrustProofs.
Open Scope R_scope.

Section Annulus.
Variables (o : bemopts) (B : nat) (r chord Rhub Rtip phi cl cd Vx Vy fz a ap d : R).
Hypothesis Hin : inside B r Rhub Rtip phi.
Hypothesis Hphi : phi < PI / 2.
Hypothesis HVx : 0 < Vx.
Hypothesis HVy : 0 < Vy.
Hypothesis Hch : 0 <= chord.
Hypothesis Hcd : 0 <= cd.
Hypothesis Hct : 0 < cl * sin phi - cd * cos phi.
Hypothesis Hd : 0 <= d < 1.
Hypothesis Heq : inductionFactors o B r chord Rhub Rtip phi cl cd Vx Vy = (fz, a, ap).
Hypothesis Ht1 : wakerotation o = true -> loading_t o B r chord Rhub Rtip phi cl cd <> 1.
Hypothesis Hclo : closes_within d Vx Vy phi a ap.

Let k := loading o B r chord Rhub Rtip phi cl cd.
Let F := lossF o B r Rhub Rtip phi.

Lemma tol_solved : a = axial_pos k F /\ 0 <= a < 1 /\ 0 <= ap /\ (1 - d) * (Vy * (1 + ap) * sin phi) <= Vx * (1 - a) * cos phi.
Proof.
  destruct (ann_trig B r Rhub Rtip phi Hin Hphi) as [Hs Hc].
  pose proof (ann_k o B r chord Rhub Rtip phi cl cd Hin Hphi Hch Hcd Hct) as Hk.
  pose proof (ann_tpos o B r chord Rhub Rtip phi cl cd Hin Hphi Hch Hcd Hct) as Ht.
  pose proof (a_below_one o B r chord Rhub Rtip phi cl cd Vx Vy fz a ap Hin Heq ltac:(lra)) as (Ha & _).
  fold k in Hk. pose proof Heq as E. rewrite ind_pos, kp_spec in E by (assumption || lra). fold k F in E.
  injection E; clear E; intros Eap Ea Ez. rewrite Ea in Ez.
  assert (HX : 0 < Vx * (1 - a) * cos phi) by (apply Rmult_lt_0_compat; [apply Rmult_lt_0_compat|]; lra).
  set (X := Vx * (1 - a) * cos phi) in *. unfold closes_within in Hclo. fold X in Hclo. set (Y := Vy * (1 + ap) * sin phi) in *.
  assert (HY : 0 < Y).
  { destruct (Rlt_le_dec 0 Y) as [H|H]; [exact H|exfalso]. rewrite Rabs_pos_eq in Hclo by lra. rewrite Rabs_left1 in Hclo by lra.
    assert (d * - Y <= - Y) by (rewrite <- (Rmult_1_l (- Y)) at 2; apply Rmult_le_compat_r; lra). lra. }
  assert (HXY : (1 - d) * Y <= X).
  { rewrite (Rabs_pos_eq Y) in Hclo by lra. pose proof (Rle_abs (- (X - Y))) as A. rewrite Rabs_Ropp in A. lra. }
  assert (H1 : 0 < 1 + ap).
  { apply Rmult_lt_reg_l with (Vy * sin phi); [apply Rmult_lt_0_compat; lra|]. rewrite Rmult_0_r. unfold Y in HY. lra. }
  split; [symmetry; exact Ea|]. split; [|split; [|exact HXY]].
  - split; [|exact Ha]. rewrite <- Ea. apply (axial_sign k F); [exact (lossF_unit o _ _ _ _ _ Hin)|lra|exact Hk].
  - rewrite <- Eap. rewrite <- Eap in H1. destruct (wakerotation o); [|lra]. specialize (Ht1 eq_refl).
    set (t := loading_t o B r chord Rhub Rtip phi cl cd) in *.
    assert (E1 : 1 + t / (1 - t) = / (1 - t)) by (field; lra). rewrite E1 in H1.
    assert (P : 0 < 1 - t). { destruct (Rlt_le_dec 0 (1 - t)) as [H|H]; [exact H|exfalso]. assert (1 - t < 0) by lra. pose proof (Rinv_lt_0_compat _ H0). lra. }
    apply Rmult_le_pos; [exact Ht|lra].
Qed.

Lemma tol_W pitch theta rho mu alpha W Re : relativeWind phi a ap Vx Vy pitch chord theta rho mu = (alpha, W, Re) ->
  0 <= W /\ (1 - d) * (W * sin phi) <= Vx * (1 - a).
Proof.
  intros HW. destruct (ann_trig B r Rhub Rtip phi Hin Hphi) as [Hs Hc]. destruct tol_solved as (_ & Ha & Hap & Hpar).
  assert (Hu : 0 < Vx * (1 - a)) by (apply Rmult_lt_0_compat; lra). set (u := Vx * (1 - a)) in *.
  assert (Hv : 0 < Vy * (1 + ap)) by (apply Rmult_lt_0_compat; lra). set (v := Vy * (1 + ap)) in *.
  unfold relativeWind in HW. injection HW; intros _ HW' _. clear HW.
  cbn [ofR nadd nsub nmul ndiv nsqrt nsin ncos nabs nlt R_arith] in HW'. fold u v in HW'. rewrite <- HW'. clear HW'.
  rb_if; [rewrite Rabs_pos_eq in * by lra; lra|]. rb_if.
  - split; [apply Rmult_le_pos; [lra|left; apply Rinv_0_lt_compat; exact Hs]|]. replace (u / sin phi * sin phi) with u by (field; lra). nra.
  - split; [apply sqrt_pos|].
    assert (HN : 0 <= (1 - d) * sin phi) by (apply Rmult_le_pos; lra).
    replace ((1 - d) * (sqrt (u * u + v * v) * sin phi)) with (sqrt (u * u + v * v) * ((1 - d) * sin phi)) by ring.
    rewrite <- (sqrt_Rsqr ((1 - d) * sin phi)) by exact HN. rewrite <- sqrt_mult by (unfold Rsqr; nra).
    rewrite <- (sqrt_Rsqr u) at 3 by lra. apply sqrt_le_1_alt. unfold Rsqr.
    pose proof (sin2_cos2 phi) as T. unfold Rsqr in T.
    assert (S1 : ((1 - d) * (v * sin phi)) * ((1 - d) * (v * sin phi)) <= (u * cos phi) * (u * cos phi)).
    { apply Rmult_le_compat; [| |exact Hpar|exact Hpar]; apply Rmult_le_pos; try lra; apply Rmult_le_pos; lra. }
    assert (S2 : (1 - d) * (1 - d) <= 1) by nra.
    assert (S3 : 0 <= u * u * (sin phi * sin phi)) by nra.
    assert (S4 : (1 - d) * (1 - d) * (u * u * (sin phi * sin phi)) <= u * u * (sin phi * sin phi)).
    { rewrite <- (Rmult_1_l (u * u * (sin phi * sin phi))) at 2. apply Rmult_le_compat_r; assumption. }
    replace (u * u) with (u * u * (sin phi * sin phi) + (u * cos phi) * (u * cos phi)) at 2; [lra|].
    transitivity (u * u * (sin phi * sin phi + cos phi * cos phi)); [ring|rewrite T; ring].
Qed.

Lemma tol_power rho pitch theta mu alpha W Re : 0 <= rho ->
  relativeWind phi a ap Vx Vy pitch chord theta rho mu = (alpha, W, Re) ->
  (1 - d) ^ 3 * (INR B * Vy * ((cl * sin phi - cd * cos phi) * (1 / 2 * rho * (W * W)) * chord)) <= 16 / 27 * (1 / 2 * rho * Vx ^ 3) * (2 * PI * r).
Proof.
  intros Hrho HW. destruct (ann_trig B r Rhub Rtip phi Hin Hphi) as [Hs Hc]. destruct tol_solved as (Ea & Ha & Hap & Hpar).
  destruct (tol_W _ _ _ _ _ _ _ HW) as (W0 & W1). destruct (ann_n o B r Rhub Rtip phi cl cd Hin Hphi Hcd Hct) as [Hn Hnt].
  pose proof (ann_solidity B r chord Rhub Rtip phi Hin Hch) as Hsg.
  pose proof (lossF_unit o _ _ _ _ _ Hin) as HF. fold F in HF.
  pose proof (power_factor k F HF (ann_k o B r chord Rhub Rtip phi cl cd Hin Hphi Hch Hcd Hct)) as PF. rewrite <- Ea in PF.
  set (ct := cl * sin phi - cd * cos phi) in *. set (cn := coef_n (useCd o) cl cd phi) in *.
  assert (Hr : 0 < r) by (destruct Hin as (_ & (H1 & H2) & _); lra). pose proof PI_RGT_0 as HPI.
  replace ((1 - d) ^ 3 * (INR B * Vy * (ct * (1 / 2 * rho * (W * W)) * chord)))
    with (1 / 2 * rho * (2 * PI * r) * (solidity B chord r * (((1 - d) * (Vy * ct)) * (((1 - d) * W) * ((1 - d) * W)))))
    by (unfold solidity; field; lra).
  replace (16 / 27 * (1 / 2 * rho * Vx ^ 3) * (2 * PI * r)) with (1 / 2 * rho * (2 * PI * r) * (16 / 27 * Vx ^ 3)) by ring.
  apply Rmult_le_compat_l; [apply Rmult_le_pos; [lra|apply Rmult_le_pos; lra]|].
  set (u := Vx * (1 - a)) in *. assert (Hu : 0 < u) by (apply Rmult_lt_0_compat; lra).
  set (v := Vy * (1 + ap)) in *. assert (Hvy : Vy <= v) by (unfold v; nra).
  assert (V1 : (1 - d) * (Vy * ct) <= cn * u).
  { apply Rmult_le_reg_r with (cos phi); [exact Hc|].
    apply Rle_trans with ((1 - d) * (v * (cn * sin phi))).
    - replace ((1 - d) * (Vy * ct) * cos phi) with ((1 - d) * (Vy * (ct * cos phi))) by ring. apply Rmult_le_compat_l; [lra|].
      apply Rmult_le_compat; [lra|apply Rmult_le_pos; lra|exact Hvy|exact Hnt].
    - replace ((1 - d) * (v * (cn * sin phi))) with (cn * ((1 - d) * (v * sin phi))) by ring.
      replace (cn * u * cos phi) with (cn * (u * cos phi)) by ring. apply Rmult_le_compat_l; [lra|exact Hpar]. }
  assert (V2 : (1 - d) * W * ((1 - d) * W) * (sin phi * sin phi) <= u * u).
  { replace ((1 - d) * W * ((1 - d) * W) * (sin phi * sin phi)) with (((1 - d) * (W * sin phi)) * ((1 - d) * (W * sin phi))) by ring.
    assert (0 <= (1 - d) * (W * sin phi)) by (apply Rmult_le_pos; [lra|apply Rmult_le_pos; lra]).
    apply Rmult_le_compat; assumption. }
  apply Rmult_le_reg_r with (sin phi * sin phi); [apply Rmult_lt_0_compat; exact Hs|].
  apply Rle_trans with (solidity B chord r * (cn * u * (u * u))).
  - replace (solidity B chord r * ((1 - d) * (Vy * ct) * ((1 - d) * W * ((1 - d) * W))) * (sin phi * sin phi))
      with (solidity B chord r * ((1 - d) * (Vy * ct) * ((1 - d) * W * ((1 - d) * W) * (sin phi * sin phi)))) by ring.
    apply Rmult_le_compat_l; [exact Hsg|]. apply Rmult_le_compat; [|apply Rmult_le_pos; [apply Rle_0_sqr|apply Rle_0_sqr]|exact V1|exact V2].
    apply Rmult_le_pos; [lra|apply Rmult_le_pos; lra].
  - replace (solidity B chord r * (cn * u * (u * u))) with (4 * F * k * (1 - a) ^ 3 * Vx ^ 3 * (sin phi * sin phi)).
    + apply Rmult_le_compat_r; [apply Rle_0_sqr|]. apply Rmult_le_compat_r; [apply pow_le; lra|exact PF].
    + unfold k, loading. fold cn. fold F. unfold u. field. split; [|lra]. lra.
Qed.
End Annulus.

Lemma fsub_one : fsub (Fin 1) (Fin 1) = Fin (1 + - (1)).
Proof. unfold fsub, fneg. replace (reqb 1 0) with false by (symmetry; apply reqb_false; lra). reflexivity. Qed.

Lemma one_over_zero x : ~ rep (fdiv (Fin 1) (fsub (Fin 1) (Fin 1))) x.
Proof.
  rewrite fsub_one. unfold rep, fdiv. cbn [iszero].
  replace (reqb (1 + - (1)) 0) with true by (symmetry; apply reqb_true; ring).
  replace (reqb 1 0) with false by (symmetry; apply reqb_false; lra). unfold inf_s. destruct (xorb _ _); discriminate.
Qed.

Lemma swirl_of o B (r chord Rhub Rtip phi cl cd Vx Vy : fl) fz a ap : wakerotation o = true ->
  inductionFactors o B r chord Rhub Rtip phi cl cd Vx Vy = (fz, a, ap) ->
  ap = fdiv (l_kp (bem_locals o B r chord Rhub Rtip phi cl cd)) (fsub (Fin 1) (l_kp (bem_locals o B r chord Rhub Rtip phi cl cd))).
Proof.
  unfold inductionFactors. generalize (bem_locals o B r chord Rhub Rtip phi cl cd). intros L Hw. rewrite Hw. cbn [negb].
  intro E. apply pair_equal_spec in E. destruct E as [_ E]. symmetry. exact E.
Qed.

(** A finite swirl means that the tangential loading is not 1. *)
Lemma swirl_finite o B (r chord Rhub Rtip phi cl cd Vx Vy : R) (cl' cd' : fl) fz a ap apr : rep cl' cl -> rep cd' cd ->
  inside B r Rhub Rtip phi -> cos phi <> 0 ->
  inductionFactors o B (Fin r) (Fin chord) (Fin Rhub) (Fin Rtip) (Fin phi) cl' cd' (Fin Vx) (Fin Vy) = (fz, a, ap) -> rep ap apr ->
  wakerotation o = true -> loading_t o B r chord Rhub Rtip phi cl cd <> 1.
Proof.
  intros Qcl Qcd Hin Hc E Q Hw H1. apply (swirl_of _ _ _ _ _ _ _ _ _ _ _ _ _ _ Hw) in E. rewrite E in Q. clear E.
  assert (Rkp : rep (l_kp (bem_locals o B (Fin r) (Fin chord) (Fin Rhub) (Fin Rtip) (Fin phi) cl' cd')) 1).
  { rewrite <- H1, <- (kp_spec o B r chord Rhub Rtip phi cl cd Hin Hc).
    apply (locals_transfer o B r chord Rhub Rtip phi cl cd _ _ _ _ _ _ _ (rep_Fin _) (rep_Fin _) (rep_Fin _) (rep_Fin _) (rep_Fin _) Qcl Qcd Hin Hc). }
  revert Q Rkp. generalize (l_kp (bem_locals o B (Fin r) (Fin chord) (Fin Rhub) (Fin Rtip) (Fin phi) cl' cd')). intros k Q Rkp.
  apply rep_inv in Rkp. destruct Rkp as [->|[_ X]]; [|lra]. exact (one_over_zero _ Q).
Qed.

Lemma station_tol d npi bq (rt : rotor fl) (sc : sect fl) l r chord t p Vx Vy Rhub Rtip rho Tp :
  0 <= d < 1 -> 3 < npi < PI -> root_inside bq ->
  s_r sc = Fin r -> s_chord sc = Fin chord -> rep (s_theta sc) t -> s_Vx sc = Fin Vx -> s_Vy sc = Fin Vy ->
  rt_Rhub rt = Fin Rhub -> rt_Rtip rt = Fin Rtip -> rt_rho rt = Fin rho -> rt_pitch rt = Fin p ->
  (1 <= rt_B rt)%nat -> 0 < Rhub < r -> r < Rtip -> 0 < Vx -> 0 < Vy -> 0 <= chord -> 0 <= rho -> drags (s_af sc) ->
  solve_station npi bq rt true sc = Ok l -> rep (o_Tp l) Tp ->
  (0 < Tp -> exists al a ap, rep (o_alpha l) al /\ rep (o_a l) a /\ rep (o_ap l) ap /\ 0 < radians al + t + p < PI / 2 /\
     closes_within d Vx Vy (radians al + t + p) a ap) ->
  (1 - d) ^ 3 * (INR (rt_B rt) * Vy * Tp) <= betz * (1 / 2 * rho * Vx ^ 3) * (2 * PI * r).
Proof.
  intros Hd Hn Hb Er Ec Qt Ex Ey Eh ET Erho Ep HB Hh HT HVx HVy Hch Hrho Haf S QT Hset. unfold betz.
  pose proof PI_RGT_0 as HPI. assert (Hn1 : 1 / 10 < npi) by lra. assert (Hd3 : 0 < (1 - d) ^ 3) by (apply pow_lt; lra).
  assert (HR : 0 <= 16 / 27 * (1 / 2 * rho * Vx ^ 3) * (2 * PI * r)).
  { apply Rmult_le_pos; [|apply Rmult_le_pos; lra]. apply Rmult_le_pos; [lra|]. apply Rmult_le_pos; [lra|apply pow_le; lra]. }
  destruct (Rle_lt_dec Tp 0) as [N|PT].
  { apply Rle_trans with 0; [|exact HR]. pose proof (pos_INR (rt_B rt)).
    assert (0 <= (1 - d) ^ 3 * (INR (rt_B rt) * Vy * - Tp)) by (apply Rmult_le_pos; [lra|]; apply Rmult_le_pos; [apply Rmult_le_pos|]; lra). lra. }
  destruct (Hset PT) as (al & a & ap & Qal & Qa & Qap & Hv & Hcl). clear Hset.
  unfold solve_station in S. destruct (rt_iterRe rt) as [|m] eqn:Em; [discriminate S|].
  apply bind_ok in S. destruct S as (phi & H1 & S). destruct (solve_finite _ _ _ _ Hn1 Hb H1) as (v & ->).
  apply bind_ok in S. destruct S as (l0 & SL & SN).
  apply nan_guard_cases in SN. destruct SN as [[_ ->]|[_ [_ ->]]]; [|cbn [o_Tp] in QT; apply rep_zero_val in QT; lra].
  assert (A0 := loads_alpha _ _ _ _ _ SL).
  unfold loads in SL. destruct (andb _ _); [|apply ok_inj in SL; subst l0; cbn in QT; apply rep_zero_val in QT; lra].
  destruct A0 as [->|A0]; [cbn in QT; apply rep_zero_val in QT; lra|].
  apply bind_ok in SL. destruct SL as (ind & SI & SL). apply bind_ok in SI. destruct SI as (out & SB & SI).
  unfold runBEM in SB. rewrite Em in SB. apply ok_inj in SB. destruct (bem_loop rt sc (Fin v) m) as ((((fz & a') & ap') & cl) & cd) eqn:EL.
  subst out. apply ok_inj in SI. subst ind. cbv beta iota zeta in SL.
  destruct (loop_coefficients _ _ _ _ _ _ _ _ _ EL) as ((al0 & Re0 & EA) & EI).
  destruct (relativeWind (Fin v) a' ap' (s_Vx sc) (s_Vy sc) (rt_pitch rt) (s_chord sc) (s_theta sc) (rt_rho rt) (rt_mu rt)) as ((alpha & W) & Re) eqn:EW.
  assert (Ev : radians al + t + p = v).
  { rewrite A0, Ep in Qal. assert (X : rep (rad2deg (nsub (Fin v) (nadd (s_theta sc) (Fin p)))) (degrees (v - (t + p)))).
    { unfold rad2deg, degrees. cbn [nmul nsub nadd ofR fl_arith]. reps. }
    rewrite (rep_fun _ _ _ Qal X), radians_degrees. ring. }
  rewrite Ev in Hv, Hcl. clear A0 Qal.
  apply ok_inj in SL. rewrite <- SL in QT, Qa, Qap. cbn [o_Tp o_a o_ap] in QT, Qa, Qap. cbn [nmul nsub nadd ncos nsin ofR fl_arith] in QT. clear SL.
  destruct (rep_mul_inv _ _ _ QT) as (x & c & QX & QC & ->). destruct (rep_mul_inv _ _ _ QX) as (ct & q & QCT & QQ & ->).
  destruct (rep_mul_inv _ _ _ QQ) as (hr & ww & QH & QW & ->). destruct (rep_mul_inv _ _ _ QW) as (w & w' & QW1 & QW2 & ->).
  rewrite <- (rep_fun _ _ _ QW1 QW2) in *. clear w' QW2.
  assert (Ehr : hr = 1 / 2 * rho). { rewrite Erho in QH. apply (rep_fun _ _ _ QH). reps. } subst hr.
  rewrite Ec in QC. assert (c = chord) by exact (rep_fun _ _ _ QC (rep_Fin _)). subst c.
  assert (Haf' := Haf al0 Re0). rewrite EA in Haf'. cbn [fst snd] in Haf'.
  destruct Haf' as [(clr & cdr & Qcl & Qcd & Hcd)|Ecl].
  2:{ exfalso. subst cl. rewrite fmul_NaN_l, fsub_NaN_l in QCT. discriminate QCT. }
  assert (Ect : ct = clr * sin v - cdr * cos v) by (apply (rep_fun _ _ _ QCT); reps). subst ct.
  assert (Hq : 0 <= 1 / 2 * rho * (w * w)) by (apply Rmult_le_pos; [lra|]; pose proof (Rle_0_sqr w); unfold Rsqr in *; lra).
  assert (Hgt : 0 < clr * sin v - cdr * cos v).
  { destruct (Rlt_le_dec 0 (clr * sin v - cdr * cos v)) as [X|X]; [exact X|exfalso].
    assert (0 <= - (clr * sin v - cdr * cos v) * (1 / 2 * rho * (w * w)) * chord) by (apply Rmult_le_pos; [apply Rmult_le_pos|]; lra). lra. }
  rewrite Er, Ec, Ex, Ey, Eh, ET in EI.
  assert (Hin : inside (rt_B rt) r Rhub Rtip v) by (unfold inside; repeat split; auto; lra).
  assert (Hc : 0 < cos v) by (apply cos_gt_0; lra). assert (Hs : 0 < sin v) by (apply sin_gt_0; lra).
  pose proof (ann_k (rt_opts rt) (rt_B rt) r chord Rhub Rtip v clr cdr Hin ltac:(lra) Hch Hcd Hgt) as Hk.
  pose proof (swirl_finite _ _ _ _ _ _ _ _ _ _ _ _ _ _ _ _ _ Qcl Qcd Hin ltac:(lra) EI Qap) as Ht.
  destruct (inductionFactors (rt_opts rt) (rt_B rt) r chord Rhub Rtip v clr cdr Vx Vy) as ((fzr & ar) & apr) eqn:ER.
  destruct (ind_transfer_rep (rt_opts rt) (rt_B rt) r chord Rhub Rtip v clr cdr Vx Vy fzr ar apr _ _ _ _ _ _ _ _ _ (rep_Fin _) (rep_Fin _) (rep_Fin _) (rep_Fin _) (rep_Fin _)
     Qcl Qcd (rep_Fin _) (rep_Fin _) Hin ltac:(lra) ltac:(lra) ltac:(lra) ltac:(lra) Ht ER) as (fz' & a1 & ap1 & E' & _ & Qa1 & Qap1).
  rewrite EI in E'. injection E'; intros <- <- _. clear E'.
  rewrite (rep_fun _ _ _ Qa Qa1), (rep_fun _ _ _ Qap Qap1) in *. clear a ap Qa Qap.
  pose proof (rel_transfer v ar apr Vx Vy 0 chord 0 rho 0 _ _ _ _ _ (rt_pitch rt) (s_chord sc) (s_theta sc) (rt_rho rt) (rt_mu rt)
     (rep_Fin v) Qa1 Qap1 (rep_Fin Vx) (rep_Fin Vy) ltac:(lra) ltac:(lra)) as TW. rewrite Ex, Ey in EW. rewrite EW in TW. cbn [fst snd] in TW.
  destruct (relativeWind v ar apr Vx Vy 0 chord 0 rho 0) as ((alr & Wr) & Rer) eqn:EWr. cbn [fst snd] in TW.
  assert (Wr = w) by exact (rep_fun _ _ _ TW QW1). subst Wr.
  exact (tol_power (rt_opts rt) (rt_B rt) r chord Rhub Rtip v clr cdr Vx Vy fzr ar apr d Hin ltac:(lra) HVx HVy Hch Hcd Hgt Hd ER Ht Hcl rho _ _ _ _ _ _ Hrho EWr).
Qed.

(** The residual in terms of the velocity triangle. *)
Lemma residual_closes : forall o B r chord Rhub Rtip phi cl cd Vx Vy fz a ap d,
  inside B r Rhub Rtip phi -> phi < PI / 2 -> 0 < Vx -> 0 < Vy -> 0 <= d ->
  0 <= loading o B r chord Rhub Rtip phi cl cd -> (wakerotation o = true -> loading_t o B r chord Rhub Rtip phi cl cd <> 1) ->
  inductionFactors o B r chord Rhub Rtip phi cl cd Vx Vy = (fz, a, ap) ->
  Rabs fz <= d * sin phi -> closes_within d Vx Vy phi a ap.
Proof.
  intros o B r chord Rhub Rtip phi cl cd Vx Vy fz a ap d Hin Hphi HVx HVy Hd Hk Ht1 Heq Hfz.
  destruct (ann_trig B r Rhub Rtip phi Hin Hphi) as [Hs Hc].
  pose proof (a_below_one o B r chord Rhub Rtip phi cl cd Vx Vy fz a ap Hin Heq ltac:(lra)) as (Ha & _).
  rewrite ind_pos, kp_spec in Heq by (assumption || lra).
  injection Heq; clear Heq; intros Eap Ea Ez. rewrite Ea in Ez.
  assert (Ha0 : 0 <= a) by (rewrite <- Ea; apply axial_sign; [exact (lossF_unit o _ _ _ _ _ Hin)|lra|exact Hk]).
  set (t := if wakerotation o then loading_t o B r chord Rhub Rtip phi cl cd else 0) in *.
  assert (Ht : t <> 1) by (unfold t; destruct (wakerotation o); [exact (Ht1 eq_refl)|lra]).
  assert (E1 : 1 + ap = / (1 - t)). { rewrite <- Eap. unfold t in *. destruct (wakerotation o); field; lra. }
  assert (Hy : 1 + ap <> 0) by (rewrite E1; apply Rinv_neq_0_compat; lra).
  assert (I : Vx * (1 - a) * cos phi - Vy * (1 + ap) * sin phi = - fz * (1 - a) * (Vy * (1 + ap))).
  { rewrite <- Ez, E1. field. repeat split; lra. }
  unfold closes_within. rewrite I, !Rabs_mult, Rabs_Ropp, (Rabs_right (1 - a)), (Rabs_right (sin phi)) by lra.
  pose proof (Rabs_pos Vy). pose proof (Rabs_pos (1 + ap)). assert (P : 0 <= Rabs Vy * Rabs (1 + ap)) by (apply Rmult_le_pos; assumption).
  replace (d * (Rabs Vy * Rabs (1 + ap) * sin phi)) with (d * sin phi * (Rabs Vy * Rabs (1 + ap))) by ring.
  apply Rmult_le_compat_r; [exact P|]. pose proof (Rabs_pos fz). 
  apply Rle_trans with (Rabs fz * 1); [apply Rmult_le_compat_l; lra|lra].
Qed.
