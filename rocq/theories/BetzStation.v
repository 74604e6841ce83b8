(** The Betz limit at one blade station (C101). *)
From Coquelicot Require Import Coquelicot.
From Coq Require Import Reals Bool Arith List Lra Lia Psatz.
From Verif Require Import Prelim Num Bem Blade IndSpec IndProofs FlProofs BladeSpec StationProofs StationLoads StationExist BladeProofs InverseForward BetzSpec BetzProofs.
Open Scope R_scope.

Lemma rep_mul_inv a b t : rep (fmul a b) t -> exists x y, rep a x /\ rep b y /\ t = x * y.
Proof.
  intros H. assert (E : (exists x, rep a x) /\ (exists y, rep b y)).
  { unfold rep in *. unfold fmul, inf_s, zero_s in H. destruct a, b; cbn [fval] in *; try discriminate H; try (split; eexists; reflexivity);
      exfalso; cbn [iszero isneg orb xorb] in H; repeat match type of H with context [if ?c then _ else _] => destruct c end; discriminate H. }
  destruct E as ((x & Hx) & (y & Hy)). exists x, y. refine (conj Hx (conj Hy _)). exact (rep_fun _ _ _ H (rep_mul _ _ _ _ Hx Hy)).
Qed.

Lemma rel_transfer phi a ap Vx Vy pitch chord theta rho mu phi' a' ap' Vx' Vy' pitch' chord' theta' rho' mu' :
  rep phi' phi -> rep a' a -> rep ap' ap -> rep Vx' Vx -> rep Vy' Vy -> cos phi <> 0 -> sin phi <> 0 ->
  rep (snd (fst (relativeWind phi' a' ap' Vx' Vy' pitch' chord' theta' rho' mu'))) (snd (fst (relativeWind phi a ap Vx Vy pitch chord theta rho mu))).
Proof.
  intros Qp Qa Qap Qx Qy Hc Hs. unfold relativeWind. cbn [fst snd].
  cbn [nmul ndiv nsub nadd nopp nabs nsqrt nle nlt nsin ncos ofR fl_arith R_arith].
  rewrite (rep_lt (Fin 10) _ 10 _ (rep_Fin 10) (rep_abs _ _ Qa)), (rep_lt (Fin 10) _ 10 _ (rep_Fin 10) (rep_abs _ _ Qap)).
  assert (R1 : rep (fmul Vx' (fsub (Fin 1) a')) (Vx * (1 - a))) by reps.
  assert (R2 : rep (fmul Vy' (fadd (Fin 1) ap')) (Vy * (1 + ap))) by reps.
  destruct (rltb 10 (Rabs a)); [apply rep_div; [exact R2|apply rep_cos; exact Qp|exact Hc]|].
  destruct (rltb 10 (Rabs ap)); [apply rep_div; [exact R1|apply rep_sin; exact Qp|exact Hs]|].
  apply rep_sqrt; [reps|]. pose proof (Rle_0_sqr (Vx * (1 - a))). pose proof (Rle_0_sqr (Vy * (1 + ap))). unfold Rsqr in *. lra.
Qed.

(** The last pass of the loop. *)
Lemma loop_last (rt : rotor fl) sc phi m : exists a0 ap0, bem_loop rt sc phi m = bem_pass rt sc phi a0 ap0.
Proof. destruct m as [|m]; cbn [bem_loop]; [eauto|]. destruct (bem_loop rt sc phi m) as ((((fz & a) & ap) & c1) & c2). eauto. Qed.

Lemma loop_coefficients (rt : rotor fl) sc phi m fz a ap cl cd : bem_loop rt sc phi m = (fz, a, ap, cl, cd) ->
  (exists al Re, s_af sc al Re = (cl, cd)) /\
  inductionFactors (rt_opts rt) (rt_B rt) (s_r sc) (s_chord sc) (rt_Rhub rt) (rt_Rtip rt) phi cl cd (s_Vx sc) (s_Vy sc) = (fz, a, ap).
Proof.
  destruct (loop_last rt sc phi m) as (a0 & ap0 & ->). unfold bem_pass.
  destruct (relativeWind phi a0 ap0 _ _ _ _ _ _ _) as ((al & W) & Re). destruct (s_af sc al Re) as (cl0 & cd0) eqn:EA.
  destruct (inductionFactors _ _ _ _ _ _ _ cl0 cd0 _ _) as ((fz0 & a1) & ap1) eqn:EI. intros E.
  injection E; intros; subst. split; [exists al, Re; exact EA|exact EI].
Qed.

(** No positive tangential force in the propeller-brake bracket. *)
Lemma brake_no_torque o B r chord Rhub Rtip psi cl cd Vx Vy cl' cd' : (1 <= B)%nat -> 0 < Rhub < r -> r < Rtip -> 0 < psi < PI / 2 ->
  0 < Vx -> 0 < Vy -> 0 <= chord -> rep cl' cl -> rep cd' cd -> 0 <= cd ->
  rep (out_fzero (inductionFactors o B (Fin r) (Fin chord) (Fin Rhub) (Fin Rtip) (Fin (- psi)) cl' cd' (Fin Vx) (Fin Vy))) 0 ->
  cl * sin (- psi) - cd * cos (- psi) <= 0.
Proof.
  intros HB Hh Ht Hpsi HVx HVy Hch Qcl Qcd Hcd H.
  destruct (Rle_lt_dec (cl * sin (- psi) - cd * cos (- psi)) 0) as [Hle|Hgt]; [exact Hle|exfalso].
  destruct (tipLoss o) eqn:EL; [rewrite residual_nan in H by (auto; lra); discriminate H|].
  destruct (hubLoss o) eqn:EH; [rewrite residual_nan in H by (auto; lra); discriminate H|].
  assert (Hs : 0 < sin psi) by (apply sin_gt_0; lra). assert (Hc : 0 < cos psi) by (apply cos_gt_0; lra).
  rewrite sin_neg, cos_neg in Hgt. pose proof PI_RGT_0 as HPI.
  assert (Hcl : cl < 0).
  { destruct (Rlt_le_dec cl 0) as [X|X]; [exact X|exfalso]. assert (0 <= cl * sin psi) by (apply Rmult_le_pos; lra).
    assert (0 <= cd * cos psi) by (apply Rmult_le_pos; lra). lra. }
  set (sg := INR B / 2 / PI * chord / r).
  assert (Hsg : 0 <= sg).
  { unfold sg. pose proof (pos_INR B). apply Rmult_le_pos; [|left; apply Rinv_0_lt_compat; lra]. apply Rmult_le_pos; [|exact Hch].
    apply Rmult_le_pos; [apply Rmult_le_pos; lra|left; apply Rinv_0_lt_compat; lra]. }
  assert (Rsig : rep (fdiv (fmul (fdiv (fdiv (Fin (INR B)) (Fin 2)) (Fin PI)) (Fin chord)) (Fin r)) sg).
  { unfold sg. apply rep_div; [|apply rep_Fin|lra]. apply rep_mul; [|apply rep_Fin]. apply rep_div; [|apply rep_Fin|lra]. apply rep_div; try apply rep_Fin; lra. }
  assert (Rs : rep (fsin (Fin (- psi))) (- sin psi)) by (rewrite <- sin_neg; apply rep_sin, rep_Fin).
  assert (Rc : rep (fcos (Fin (- psi))) (cos psi)) by (rewrite <- cos_neg; apply rep_cos, rep_Fin).
  assert (Rl : rep (fdiv (Fin Vy) (Fin Vx)) (Vy / Vx)) by (apply rep_div; [apply rep_Fin|apply rep_Fin|lra]).
  assert (Hl : 0 < Vy / Vx) by (apply Rdiv_lt_0_compat; lra).
  set (cn := if useCd o then cl * cos psi + cd * - sin psi else cl * cos psi).
  set (ct := if useCd o then cl * - sin psi - cd * cos psi else cl * - sin psi).
  assert (Hcn : cn <= 0).
  { assert (0 <= cd * sin psi) by (apply Rmult_le_pos; lra). assert (cl * cos psi < 0) by nra. unfold cn. destruct (useCd o); lra. }
  assert (Hct : 0 < ct). { assert (0 <= cd * cos psi) by (apply Rmult_le_pos; lra). unfold ct. destruct (useCd o); lra. }
  set (kr := sg * cn / 4 / (1 * 1) / - sin psi / - sin psi). set (kpr := sg * ct / 4 / (1 * 1) / - sin psi / cos psi).
  assert (Hkr : kr <= 0).
  { replace kr with (- (sg * - cn / 4 / (sin psi * sin psi))) by (unfold kr; field; lra).
    assert (0 <= sg * - cn / 4 / (sin psi * sin psi)); [|lra].
    assert (0 <= sg * - cn) by (apply Rmult_le_pos; lra). apply Rmult_le_pos; [lra|]. left. apply Rinv_0_lt_compat. nra. }
  assert (Hkp : kpr <= 0).
  { replace kpr with (- (sg * ct / 4 / (sin psi * cos psi))) by (unfold kpr; field; lra).
    assert (0 <= sg * ct / 4 / (sin psi * cos psi)); [|lra].
    assert (0 <= sg * ct) by (apply Rmult_le_pos; lra). apply Rmult_le_pos; [lra|]. left. apply Rinv_0_lt_compat. nra. }
  assert (E : rep (out_fzero (inductionFactors o B (Fin r) (Fin chord) (Fin Rhub) (Fin Rtip) (Fin (- psi)) cl' cd' (Fin Vx) (Fin Vy)))
     (- sin psi * (1 - kr) - cos psi / (Vy / Vx) * (1 - (if wakerotation o then kpr else 0)))).
  { unfold inductionFactors, out_fzero, bem_locals. cbn [fst l_sphi l_cphi l_k l_kp].
    rewrite EL, EH. cbn [nmul ndiv nsub nadd nopp nabs nsqrt nle nlt nsin ncos ofR fl_arith R_arith].
    rewrite (rep_lt (Fin 0) _ 0 (- psi) (rep_Fin 0) (rep_Fin _)). replace (rltb 0 (- psi)) with false by (symmetry; apply rltb_false; lra).
    assert (R1 : rep (fmul (Fin 1) (Fin 1)) (1 * 1)) by reps.
    apply rep_sub.
    - apply rep_mul; [exact Rs|]. apply rep_sub; [apply rep_Fin|]. unfold kr.
      apply rep_div; [|exact Rs|lra]. apply rep_div; [|exact Rs|lra]. apply rep_div; [|exact R1|lra]. apply rep_div; [|apply rep_Fin|lra].
      apply rep_mul; [exact Rsig|]. unfold cn. destruct (useCd o); cbn [negb]; reps.
    - apply rep_mul; [apply rep_div; [exact Rc|exact Rl|lra]|]. apply rep_sub; [apply rep_Fin|].
      destruct (wakerotation o); cbn [negb]; [|apply rep_Fin]. unfold kpr.
      apply rep_div; [|exact Rc|lra]. apply rep_div; [|exact Rs|lra]. apply rep_div; [|exact R1|lra]. apply rep_div; [|apply rep_Fin|lra].
      apply rep_mul; [exact Rsig|]. unfold ct. destruct (useCd o); cbn [negb]; reps. }
  pose proof (rep_fun _ _ _ H E) as Z.
  assert (0 < cos psi / (Vy / Vx)) by (apply Rdiv_lt_0_compat; lra).
  assert (sin psi <= sin psi * (1 - kr)) by nra.
  assert (0 < cos psi / (Vy / Vx) * (1 - (if wakerotation o then kpr else 0))) by (apply Rmult_lt_0_compat; [assumption|destruct (wakerotation o); lra]).
  lra.
Qed.

Lemma station_power npi bq (rt : rotor fl) (sc : sect fl) l r chord t p Vx Vy Rhub Rtip rho Tp :
  3 < npi < PI -> root_inside bq -> finds_zeros bq ->
  s_r sc = Fin r -> s_chord sc = Fin chord -> rep (s_theta sc) t -> s_Vx sc = Fin Vx -> s_Vy sc = Fin Vy ->
  rt_Rhub rt = Fin Rhub -> rt_Rtip rt = Fin Rtip -> rt_rho rt = Fin rho -> rt_pitch rt = Fin p ->
  (1 <= rt_B rt)%nat -> 0 < Rhub < r -> r < Rtip -> 0 < Vx -> 0 < Vy -> 0 <= chord -> 0 <= rho -> drags (s_af sc) ->
  solve_station npi bq rt true sc = Ok l -> rep (o_Tp l) Tp ->
  (forall al, rep (o_alpha l) al -> radians al + t + p <= npi / 2) ->
  INR (rt_B rt) * Vy * Tp <= betz * (1 / 2 * rho * Vx ^ 3) * (2 * PI * r).
Proof.
  intros Hn Hb Hz Er Ec Qt Ex Ey Eh ET Erho Ep HB Hh HT HVx HVy Hch Hrho Haf S QT Hal. unfold betz.
  pose proof PI_RGT_0 as HPI. assert (Hn1 : 1 / 10 < npi) by lra.
  assert (HR : 0 <= 16 / 27 * (1 / 2 * rho * Vx ^ 3) * (2 * PI * r)).
  { apply Rmult_le_pos; [|apply Rmult_le_pos; lra]. apply Rmult_le_pos; [lra|]. apply Rmult_le_pos; [lra|apply pow_le; lra]. }
  assert (N : Tp <= 0 -> INR (rt_B rt) * Vy * Tp <= 16 / 27 * (1 / 2 * rho * Vx ^ 3) * (2 * PI * r)).
  { intros H. apply Rle_trans with 0; [|exact HR]. pose proof (pos_INR (rt_B rt)).
    assert (0 <= INR (rt_B rt) * Vy * - Tp) by (apply Rmult_le_pos; [apply Rmult_le_pos|]; lra). lra. }
  unfold solve_station in S. destruct (rt_iterRe rt) as [|m] eqn:Em; [discriminate S|].
  apply bind_ok in S. destruct S as (phi & H1 & S). destruct (solve_finite _ _ _ _ Hn1 Hb H1) as (v & ->).
  apply bind_ok in S. destruct S as (l0 & SL & SN).
  apply nan_guard_cases in SN. destruct SN as [[_ ->]|[_ [_ ->]]]; [|cbn [o_Tp] in QT; apply rep_zero_val in QT; apply N; lra].
  assert (A0 := loads_alpha _ _ _ _ _ SL).
  unfold loads in SL. destruct (andb _ _); [|apply ok_inj in SL; subst l0; cbn in QT; apply rep_zero_val in QT; apply N; lra].
  destruct A0 as [->|A0]; [cbn in QT; apply rep_zero_val in QT; apply N; lra|].
  apply bind_ok in SL. destruct SL as (ind & SI & SL). apply bind_ok in SI. destruct SI as (out & SB & SI).
  unfold runBEM in SB. rewrite Em in SB. apply ok_inj in SB. destruct (bem_loop rt sc (Fin v) m) as ((((fz & a) & ap) & cl) & cd) eqn:EL.
  subst out. apply ok_inj in SI. subst ind. cbv beta iota zeta in SL.
  destruct (loop_coefficients _ _ _ _ _ _ _ _ _ EL) as ((al0 & Re0 & EA) & EI).
  assert (Z : errf rt sc m (Fin v) = fz) by (unfold errf; rewrite EL; reflexivity).
  destruct (relativeWind (Fin v) a ap (s_Vx sc) (s_Vy sc) (rt_pitch rt) (s_chord sc) (s_theta sc) (rt_rho rt) (rt_mu rt)) as ((alpha & W) & Re) eqn:EW.
  apply ok_inj in SL. rewrite <- SL in QT. cbn [o_Tp] in QT. cbn [nmul nsub nadd ncos nsin ofR fl_arith] in QT.
  destruct (rep_mul_inv _ _ _ QT) as (x & c & QX & QC & ->). destruct (rep_mul_inv _ _ _ QX) as (ct & q & QCT & QQ & ->).
  destruct (rep_mul_inv _ _ _ QQ) as (hr & ww & QH & QW & ->). destruct (rep_mul_inv _ _ _ QW) as (w & w' & QW1 & QW2 & ->).
  rewrite <- (rep_fun _ _ _ QW1 QW2) in *. clear w' QW2.
  assert (Ehr : hr = 1 / 2 * rho). { rewrite Erho in QH. apply (rep_fun _ _ _ QH). reps. } subst hr.
  rewrite Ec in QC. assert (c = chord) by exact (rep_fun _ _ _ QC (rep_Fin _)). subst c.
  assert (Haf' := Haf al0 Re0). rewrite EA in Haf'. cbn [fst snd] in Haf'.
  destruct Haf' as [(clr & cdr & Qcl & Qcd & Hcd)|Ecl].
  2:{ exfalso. subst cl. rewrite fmul_NaN_l, fsub_NaN_l in QCT. discriminate QCT. }
  assert (Ect : ct = clr * sin v - cdr * cos v) by (apply (rep_fun _ _ _ QCT); reps). subst ct.
  assert (Hq : 0 <= 1 / 2 * rho * (w * w)) by (apply Rmult_le_pos; [lra|]; pose proof (Rle_0_sqr w); unfold Rsqr in *; lra).
  destruct (Rle_lt_dec (clr * sin v - cdr * cos v) 0) as [Hle|Hgt].
  { apply N. assert (0 <= - (clr * sin v - cdr * cos v) * (1 / 2 * rho * (w * w)) * chord) by (apply Rmult_le_pos; [apply Rmult_le_pos|]; lra). lra. }
  destruct (solve_bracket _ _ _ _ Hn1 Hb H1) as (lo & hi & D & [(E & v' & Ev & Hv)|(E & Ev)]).
  2:{ exfalso. injection Ev; intros ->. rewrite sin_0, cos_0 in Hgt. lra. }
  injection Ev; intros <-. clear Ev. assert (Z0 : rep fz 0) by (rewrite <- Z; exact (Hz _ _ _ _ E)).
  rewrite Er, Ec, Ex, Ey, Eh, ET in EI.
  assert (Hv2 : 1 / 1000000 <= v <= npi / 2 -> INR (rt_B rt) * Vy * ((clr * sin v - cdr * cos v) * (1 / 2 * rho * (w * w)) * chord) <=
     16 / 27 * (1 / 2 * rho * Vx ^ 3) * (2 * PI * r)).
  { intros Hv2. assert (Hin : inside (rt_B rt) r Rhub Rtip v) by (unfold inside; repeat split; auto; lra).
    assert (Hc : 0 < cos v) by (apply cos_gt_0; lra). assert (Hs : 0 < sin v) by (apply sin_gt_0; lra).
    pose proof (ann_k (rt_opts rt) (rt_B rt) r chord Rhub Rtip v clr cdr Hin ltac:(lra) Hch Hcd Hgt) as Hk.
    destruct (inductionFactors (rt_opts rt) (rt_B rt) r chord Rhub Rtip v clr cdr Vx Vy) as ((fzr & ar) & apr) eqn:ER.
    pose proof (fzero_transfer (rt_opts rt) (rt_B rt) r chord Rhub Rtip v clr cdr Vx Vy _ _ _ _ _ _ _ _ _ (rep_Fin _) (rep_Fin _) (rep_Fin _) (rep_Fin _) (rep_Fin _)
       Qcl Qcd (rep_Fin _) (rep_Fin _) Hin ltac:(lra) ltac:(lra) ltac:(lra) ltac:(lra)) as TF.
    rewrite EI, ER in TF. unfold out_fzero in TF. cbn [fst] in TF. assert (fzr = 0) by exact (rep_fun _ _ _ TF Z0). subst fzr.
    destruct (ann_solved (rt_opts rt) (rt_B rt) r chord Rhub Rtip v clr cdr Vx Vy ar apr Hin ltac:(lra) HVx HVy Hch Hcd Hgt ER) as (_ & _ & Ht & _ & _).
    destruct (ind_transfer_rep (rt_opts rt) (rt_B rt) r chord Rhub Rtip v clr cdr Vx Vy 0 ar apr _ _ _ _ _ _ _ _ _ (rep_Fin _) (rep_Fin _) (rep_Fin _) (rep_Fin _) (rep_Fin _)
       Qcl Qcd (rep_Fin _) (rep_Fin _) Hin ltac:(lra) ltac:(lra) ltac:(lra) ltac:(lra) Ht ER) as (fz' & a' & ap' & E' & _ & Qa & Qap).
    rewrite EI in E'. injection E'; intros <- <- _. clear E'.
    pose proof (rel_transfer v ar apr Vx Vy 0 chord 0 rho 0 _ _ _ _ _ (rt_pitch rt) (s_chord sc) (s_theta sc) (rt_rho rt) (rt_mu rt)
       (rep_Fin v) Qa Qap (rep_Fin Vx) (rep_Fin Vy) ltac:(lra) ltac:(lra)) as TW. rewrite Ex, Ey in EW. rewrite EW in TW. cbn [fst snd] in TW.
    destruct (relativeWind v ar apr Vx Vy 0 chord 0 rho 0) as ((alr & Wr) & Rer) eqn:EWr. cbn [fst snd] in TW.
    assert (Wr = w) by exact (rep_fun _ _ _ TW QW1). subst Wr.
    exact (annulus_power (rt_opts rt) (rt_B rt) r chord Rhub Rtip v clr cdr Vx Vy ar apr Hin ltac:(lra) HVx HVy Hch Hcd Hgt ER rho _ _ _ _ _ _ Hrho EWr). }
  destruct D as [HS|HS HN HP|HS HN].
  - apply Hv2. lra.
  - exfalso. assert (EIo := f_equal out_fzero EI). unfold out_fzero in EIo at 2. cbn [fst] in EIo. rewrite <- EIo in Z0.
    replace v with (- - v) in Z0, Hgt by ring.
    pose proof (brake_no_torque _ _ _ _ _ _ (- v) _ _ _ _ _ _ HB Hh HT ltac:(lra) HVx HVy Hch Qcl Qcd Hcd Z0). lra.
  - apply Hv2. assert (V : v <= npi / 2); [|lra].
    replace v with (radians (degrees (v - (t + p))) + t + p) by (rewrite radians_degrees; ring). apply Hal. rewrite A0, Ep.
    unfold rad2deg, degrees. cbn [nmul nsub nadd ofR fl_arith]. reps.
Qed.
