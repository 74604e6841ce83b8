(** Thrust and power of one blade station (C103). *)
From Coquelicot Require Import Coquelicot.
From Coq Require Import Reals Bool Arith List Lra Lia Psatz.
From Verif Require Import Prelim Num Bem Blade IndSpec IndProofs FlProofs BladeSpec StationProofs StationLoads StationExist BladeProofs InverseForward BetzSpec BetzProofs BetzStation ThrustProofs.
Open Scope R_scope.


(** ** One blade station *)
Lemma station_thrust npi bq (rt : rotor fl) (sc : sect fl) l r chord t p Vx Vy Rhub Rtip rho Np Tp :
  3 < npi < PI -> root_inside bq -> finds_zeros bq ->
  s_r sc = Fin r -> s_chord sc = Fin chord -> rep (s_theta sc) t -> s_Vx sc = Fin Vx -> s_Vy sc = Fin Vy ->
  rt_Rhub rt = Fin Rhub -> rt_Rtip rt = Fin Rtip -> rt_rho rt = Fin rho -> rt_pitch rt = Fin p ->
  (1 <= rt_B rt)%nat -> 0 < Rhub < r -> r < Rtip -> 0 < Vx -> 0 < Vy -> 0 <= chord -> 0 <= rho -> drags (s_af sc) ->
  solve_station npi bq rt true sc = Ok l -> rep (o_Np l) Np -> rep (o_Tp l) Tp ->
  (forall al, rep (o_alpha l) al -> ~ (Np = 0 /\ Tp = 0) -> 0 < radians al + t + p <= npi / 2) ->
  Vy * Tp <= Vx * Np /\ (useCd (rt_opts rt) = true -> INR (rt_B rt) * Np <= 2 * (1 / 2 * rho * Vx ^ 2) * (2 * PI * r)).
Proof.
  intros Hn Hb Hz Er Ec Qt Ex Ey Eh ET Erho Ep HB Hh HT HVx HVy Hch Hrho Haf S QN QT Hal.
  pose proof PI_RGT_0 as HPI. assert (Hn1 : 1 / 10 < npi) by lra.
  assert (D : (Np = 0 /\ Tp = 0) \/ ~ (Np = 0 /\ Tp = 0)) by (destruct (Req_dec Np 0), (Req_dec Tp 0); tauto).
  destruct D as [[-> ->]|NZ].
  { split; [lra|]. intros _. rewrite Rmult_0_r. apply Rmult_le_pos; [|apply Rmult_le_pos; lra]. apply Rmult_le_pos; [lra|]. apply Rmult_le_pos; [lra|apply pow2_ge_0]. }
  assert (Zero : rep (o_Np l) 0 -> rep (o_Tp l) 0 -> False) by (intros Z1 Z2; apply NZ; split; [exact (rep_fun _ _ _ QN Z1)|exact (rep_fun _ _ _ QT Z2)]).
  unfold solve_station in S. destruct (rt_iterRe rt) as [|m] eqn:Em; [discriminate S|].
  apply bind_ok in S. destruct S as (phi & H1 & S). destruct (solve_finite _ _ _ _ Hn1 Hb H1) as (v & ->).
  apply bind_ok in S. destruct S as (l0 & SL & SN).
  apply nan_guard_cases in SN. destruct SN as [[_ ->]|[_ [_ ->]]]; [|exfalso; apply Zero; apply rep_Fin].
  assert (A0 := loads_alpha _ _ _ _ _ SL).
  destruct A0 as [->|A0]; [exfalso; apply Zero; apply rep_Fin|].
  assert (V : 0 < v <= npi / 2).
  { replace v with (radians (degrees (v - (t + p))) + t + p) by (rewrite radians_degrees; ring). apply Hal; [|exact NZ]. rewrite A0, Ep.
    unfold rad2deg, degrees. cbn [nmul nsub nadd ofR fl_arith]. reps. }
  unfold loads in SL. destruct (andb _ _); [|exfalso; apply ok_inj in SL; subst l0; apply Zero; apply rep_Fin].
  apply bind_ok in SL. destruct SL as (ind & SI & SL). apply bind_ok in SI. destruct SI as (out & SB & SI).
  unfold runBEM in SB. rewrite Em in SB. apply ok_inj in SB. destruct (bem_loop rt sc (Fin v) m) as ((((fz & a) & ap) & cl) & cd) eqn:EL.
  subst out. apply ok_inj in SI. subst ind. cbv beta iota zeta in SL.
  destruct (loop_coefficients _ _ _ _ _ _ _ _ _ EL) as ((al0 & Re0 & EA) & EI).
  assert (Z : errf rt sc m (Fin v) = fz) by (unfold errf; rewrite EL; reflexivity).
  destruct (relativeWind (Fin v) a ap (s_Vx sc) (s_Vy sc) (rt_pitch rt) (s_chord sc) (s_theta sc) (rt_rho rt) (rt_mu rt)) as ((alpha & W) & Re) eqn:EW.
  apply ok_inj in SL. rewrite <- SL in QT, QN. cbn [o_Tp o_Np] in QT, QN. cbn [nmul nsub nadd ncos nsin ofR fl_arith] in QT, QN.
  destruct (rep_mul_inv _ _ _ QT) as (x & c & QX & QC & ET'). destruct (rep_mul_inv _ _ _ QX) as (ct & q & QCT & QQ & EX).
  destruct (rep_mul_inv _ _ _ QQ) as (hr & ww & QH & QW & EQ). destruct (rep_mul_inv _ _ _ QW) as (w & w' & QW1 & QW2 & Eww).
  rewrite <- (rep_fun _ _ _ QW1 QW2) in *. clear w' QW2.
  assert (Ehr : hr = 1 / 2 * rho). { rewrite Erho in QH. apply (rep_fun _ _ _ QH). reps. }
  rewrite Ec in QC. assert (Ecc : c = chord) by exact (rep_fun _ _ _ QC (rep_Fin _)).
  assert (Haf' := Haf al0 Re0). rewrite EA in Haf'. cbn [fst snd] in Haf'.
  destruct Haf' as [(clr & cdr & Qcl & Qcd & Hcd)|Ecl].
  2:{ exfalso. subst cl. rewrite fmul_NaN_l, fsub_NaN_l in QCT. discriminate QCT. }
  assert (Ect : ct = clr * sin v - cdr * cos v) by (apply (rep_fun _ _ _ QCT); reps).
  subst ct hr c ww q x.
  assert (ENp : Np = (clr * cos v + cdr * sin v) * (1 / 2 * rho * (w * w)) * chord).
  { apply (rep_fun _ _ _ QN). rewrite Ec. apply rep_mul; [|apply rep_Fin]. apply rep_mul; [|exact QQ]. reps. }
  assert (Hq : 0 <= 1 / 2 * rho * (w * w)) by (apply Rmult_le_pos; [lra|]; pose proof (Rle_0_sqr w); unfold Rsqr in *; lra).
  rewrite Er, Ec, Ex, Ey, Eh, ET in EI.
  assert (Z0 : rep fz 0).
  { destruct (solve_bracket _ _ _ _ Hn1 Hb H1) as (lo & hi & _ & [(E & _)|(_ & Ev)]); [rewrite <- Z; exact (Hz _ _ _ _ E)|].
    exfalso. injection Ev; intros E. lra. }
  assert (Hin : inside (rt_B rt) r Rhub Rtip v) by (unfold inside; repeat split; auto; lra).
  assert (Hc : 0 < cos v) by (apply cos_gt_0; lra). assert (Hs : 0 < sin v) by (apply sin_gt_0; lra). assert (Hv2 : v < PI / 2) by lra.
  assert (Hk : - 1 < loading (rt_opts rt) (rt_B rt) r chord Rhub Rtip v clr cdr).
  { destruct (Rlt_le_dec (- 1) (loading (rt_opts rt) (rt_B rt) r chord Rhub Rtip v clr cdr)) as [L|L]; [exact L|exfalso].
    apply (no_zero_below (rt_opts rt) (rt_B rt) r chord Rhub Rtip v clr cdr Vx Vy cl cd Hin Hv2 HVx HVy Hch Qcl Qcd Hcd L). rewrite EI. exact Z0. }
  destruct (inductionFactors (rt_opts rt) (rt_B rt) r chord Rhub Rtip v clr cdr Vx Vy) as ((fzr & ar) & apr) eqn:ER.
  assert (Hc0 : cos v <> 0) by lra. assert (Hs0 : sin v <> 0) by lra. assert (Vx0 : Vx <> 0) by lra. assert (Vy0 : Vy <> 0) by lra.
  pose proof (fzero_transfer (rt_opts rt) (rt_B rt) r chord Rhub Rtip v clr cdr Vx Vy _ _ _ _ _ _ _ _ _ (rep_Fin _) (rep_Fin _) (rep_Fin _) (rep_Fin _) (rep_Fin _)
     Qcl Qcd (rep_Fin _) (rep_Fin _) Hin Hc0 Vx0 Vy0 Hk) as TF.
  rewrite EI, ER in TF. unfold out_fzero in TF. cbn [fst] in TF. assert (fzr = 0) by exact (rep_fun _ _ _ TF Z0). subst fzr.
  destruct (th_solved (rt_opts rt) (rt_B rt) r chord Rhub Rtip v clr cdr Vx Vy ar apr Hin Hv2 HVx HVy Hk ER) as (_ & _ & Ht & _).
  destruct (ind_transfer_rep (rt_opts rt) (rt_B rt) r chord Rhub Rtip v clr cdr Vx Vy 0 ar apr _ _ _ _ _ _ _ _ _ (rep_Fin _) (rep_Fin _) (rep_Fin _) (rep_Fin _) (rep_Fin _)
     Qcl Qcd (rep_Fin _) (rep_Fin _) Hin Hc0 Vx0 Vy0 Hk Ht ER) as (fz' & a' & ap' & E' & _ & Qa & Qap).
  rewrite EI in E'. injection E'; intros <- <- _. clear E'.
  pose proof (rel_transfer v ar apr Vx Vy 0 chord 0 rho 0 _ _ _ _ _ (rt_pitch rt) (s_chord sc) (s_theta sc) (rt_rho rt) (rt_mu rt)
     (rep_Fin v) Qa Qap (rep_Fin Vx) (rep_Fin Vy) Hc0 Hs0) as TW. rewrite Ex, Ey in EW. rewrite EW in TW. cbn [fst snd] in TW.
  destruct (relativeWind v ar apr Vx Vy 0 chord 0 rho 0) as ((alr & Wr) & Rer) eqn:EWr. cbn [fst snd] in TW.
  assert (Wr = w) by exact (rep_fun _ _ _ TW QW1). subst Wr.
  split.
  - pose proof (th_energy (rt_opts rt) (rt_B rt) r chord Rhub Rtip v clr cdr Vx Vy ar apr Hin Hv2 HVx HVy Hch Hcd Hk ER _ _ _ _ _ _ _ EWr) as E.
    rewrite ENp, ET'. apply (Rmult_le_compat_r (1 / 2 * rho * (w * w) * chord)) in E; [lra|]. apply Rmult_le_pos; assumption.
  - intros Eu. rewrite ENp. exact (th_thrust (rt_opts rt) (rt_B rt) r chord Rhub Rtip v clr cdr Vx Vy ar apr Hin Hv2 HVx HVy Hch Hcd Hk ER _ _ _ _ _ _ _ Eu Hrho EWr).
Qed.
