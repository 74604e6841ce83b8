(** A blade station without lift (C119, C120). *)
From Coquelicot Require Import Coquelicot.
From Coq Require Import Reals Bool Arith List Lra Lia Psatz.
From Verif Require Import Prelim Num Bem Blade IndSpec IndProofs FlProofs BladeSpec StationProofs StationLoads StationExist BladeProofs InverseForward BetzStation DragSpec.
Open Scope R_scope.

Lemma solidity_pos B chord r : (1 <= B)%nat -> 0 <= chord -> 0 < r -> 0 <= solidity B chord r.
Proof.
  intros HB Hc Hr. unfold solidity. pose proof PI_RGT_0. pose proof (pos_INR B). apply Rmult_le_pos; [apply Rmult_le_pos; lra|].
  left. apply Rinv_0_lt_compat. apply Rmult_lt_0_compat; lra.
Qed.

(** Between 0 and 180 degrees the residual has no zero where the cosine and the speed ratio have opposite signs. *)
Lemma drag_no_zero o B r chord Rhub Rtip phi cd Vx Vy : inside B r Rhub Rtip phi -> 0 <= chord -> 0 <= cd -> cos phi <> 0 -> cos phi * (Vx * Vy) < 0 ->
  0 <= loading o B r chord Rhub Rtip phi 0 cd /\ 0 < out_fzero (inductionFactors o B r chord Rhub Rtip phi 0 cd Vx Vy).
Proof.
  intros Hin Hch Hcd Hc Hs. pose proof (lossF_unit o _ _ _ _ _ Hin) as HF. pose proof Hin as (HB & (H1 & H2) & H3 & H4).
  assert (Sp : 0 < sin phi) by (apply sin_gt_0; lra). pose proof (solidity_pos B chord r HB Hch ltac:(lra)) as Hsg.
  assert (Hk : 0 <= loading o B r chord Rhub Rtip phi 0 cd).
  { unfold loading, coef_n. assert (0 <= cd * sin phi) by (apply Rmult_le_pos; lra).
    apply Rmult_le_pos; [apply Rmult_le_pos; [exact Hsg|destruct (useCd o); lra]|]. left. apply Rinv_0_lt_compat.
    apply Rmult_lt_0_compat; [lra|]. apply pow_lt. exact Sp. }
  split; [exact Hk|].
  assert (Ht : loading_t o B r chord Rhub Rtip phi 0 cd <= 0).
  { replace (loading_t o B r chord Rhub Rtip phi 0 cd) with (- (solidity B chord r * (if useCd o then cd else 0) / (4 * lossF o B r Rhub Rtip phi * sin phi))).
    2:{ unfold loading_t, coef_t. destruct (useCd o); field; repeat split; lra. }
    assert (0 <= solidity B chord r * (if useCd o then cd else 0) / (4 * lossF o B r Rhub Rtip phi * sin phi)); [|lra].
    apply Rmult_le_pos; [apply Rmult_le_pos; [exact Hsg|destruct (useCd o); lra]|]. left. apply Rinv_0_lt_compat. apply Rmult_lt_0_compat; lra. }
  destruct (inductionFactors o B r chord Rhub Rtip phi 0 cd Vx Vy) as ((fz & a) & ap) eqn:E. unfold out_fzero. cbn [fst].
  destruct (a_below_one _ _ _ _ _ _ _ _ _ _ _ _ _ _ Hin E ltac:(lra)) as (Ha & _).
  rewrite ind_pos in E by exact Hin. rewrite kp_spec in E by assumption. injection E; intros _ Ea <-. rewrite Ea.
  assert (VN : Vx <> 0 /\ Vy <> 0) by (split; intros Z; rewrite Z in Hs; lra). destruct VN as (Nx & Ny).
  assert (P1 : 0 < sin phi / (1 - a)) by (apply Rdiv_lt_0_compat; lra).
  assert (P2 : cos phi / (Vy / Vx) < 0).
  { replace (cos phi / (Vy / Vx)) with (cos phi * (Vx * Vy) / (Vy * Vy)) by (field; split; assumption).
    assert (0 < Vy * Vy) by nra. apply Rmult_lt_reg_r with (Vy * Vy); [assumption|]. unfold Rdiv. rewrite Rmult_assoc, Rinv_l by lra. lra. }
  destruct (wakerotation o); nra.
Qed.

(** At an angle of exactly zero the tangential induction is not a number. *)
Lemma div_zero x s : rep s 0 -> fdiv x s = NaN \/ fdiv x s = PInf \/ fdiv x s = NInf.
Proof.
  intros H. destruct (rep_inv _ _ H) as [->|[-> _]]; unfold fdiv, inf_s; destruct x; cbn [iszero isneg xorb];
    repeat match goal with |- context [reqb ?u ?v] => let E := fresh in destruct (reqb u v) eqn:E; [apply reqb_true in E|apply reqb_false in E] end;
    try (exfalso; congruence); repeat match goal with |- context [if ?c then _ else _] => destruct c end; auto.
Qed.
Lemma ratio_nan kp : kp = NaN \/ kp = PInf \/ kp = NInf -> fdiv kp (fsub (Fin 1) kp) = NaN.
Proof. intros [->|[->| ->]]; reflexivity. Qed.
Lemma div_special x c : x = NaN \/ x = PInf \/ x = NInf -> fdiv x (Fin c) = NaN \/ fdiv x (Fin c) = PInf \/ fdiv x (Fin c) = NInf.
Proof. intros [->|[->| ->]]; unfold fdiv, inf_s; cbn [iszero isneg xorb]; repeat match goal with |- context [if ?c then _ else _] => destruct c end; auto. Qed.
Lemma kp_shape o B (r chord Rhub Rtip phi cl cd : fl) : exists x, l_kp (bem_locals o B r chord Rhub Rtip phi cl cd) = fdiv (fdiv x (fsin phi)) (fcos phi).
Proof.
  unfold bem_locals. cbn [l_kp]. cbn [ndiv nsin ncos fl_arith].
  match goal with |- context [fdiv (fdiv ?x (fsin phi)) _] => exists x end. reflexivity.
Qed.
Lemma ap_shape o B (r chord Rhub Rtip phi cl cd Vx Vy : fl) : wakerotation o = true ->
  snd (inductionFactors o B r chord Rhub Rtip phi cl cd Vx Vy) =
  (let kp := l_kp (bem_locals o B r chord Rhub Rtip phi cl cd) in fdiv kp (fsub (Fin 1) kp)).
Proof. intros H. unfold inductionFactors. rewrite H. cbn [negb snd]. generalize (bem_locals o B r chord Rhub Rtip phi cl cd). intros L. reflexivity. Qed.
Lemma zero_angle_ap o B r chord Rhub Rtip cl cd Vx Vy fz a ap : wakerotation o = true ->
  inductionFactors o B r chord Rhub Rtip (Fin 0) cl cd Vx Vy = (fz, a, ap) -> ap = NaN.
Proof.
  intros Hw E. apply (f_equal snd) in E. rewrite (ap_shape _ _ _ _ _ _ _ _ _ _ _ Hw) in E. cbn [snd] in E. subst ap. cbv zeta.
  destruct (kp_shape o B r chord Rhub Rtip (Fin 0) cl cd) as (x & ->). apply ratio_nan.
  pose proof (rep_sin (Fin 0) 0 (rep_Fin 0)) as Q. rewrite sin_0 in Q.
  pose proof (div_zero x _ Q) as D. revert D. generalize (fdiv x (fsin (Fin 0))). intros y D. unfold fcos. apply div_special. exact D.
Qed.
Lemma nan_wind phi a Vx Vy pitch chord theta rho mu : snd (fst (relativeWind phi a NaN Vx Vy pitch chord theta rho mu)) = NaN.
Proof.
  unfold relativeWind. cbn [fst snd]. cbn [nmul ndiv nsub nadd nopp nabs nsqrt nle nlt nsin ncos ofR fl_arith].
  assert (N : fmul Vy (fadd (Fin 1) NaN) = NaN) by (destruct Vy; reflexivity). rewrite N.
  destruct (flt (Fin 10) (fabs a)); [reflexivity|]. destruct (flt (Fin 10) (fabs NaN)) eqn:E; [discriminate E|].
  rewrite fmul_NaN_l, fadd_NaN_r. reflexivity.
Qed.

(** The shape of the tangential load. *)
Lemma drag_station_cases npi bq (rt : rotor fl) (sc : sect fl) l r chord Vx Vy Rhub Rtip rho Tp :
  3 < npi < PI -> root_inside bq -> finds_zeros bq ->
  s_r sc = Fin r -> s_chord sc = Fin chord -> s_Vx sc = Fin Vx -> s_Vy sc = Fin Vy ->
  rt_Rhub rt = Fin Rhub -> rt_Rtip rt = Fin Rtip -> rt_rho rt = Fin rho ->
  (1 <= rt_B rt)%nat -> 0 < Rhub < r -> r < Rtip -> 0 <= chord -> 0 <= rho -> no_lift (s_af sc) ->
  solve_station npi bq rt true sc = Ok l -> rep (o_Tp l) Tp ->
  Tp = 0 \/ exists v cd' cd q, 0 <= cd /\ rep cd' cd /\ 0 <= q /\ Tp = - cos v * cd * q /\
    ((v = 0 /\ wakerotation (rt_opts rt) = false) \/ exists lo hi m cl', documented_bracket npi (errf rt sc m) lo hi /\ lo <= v <= hi /\ rep cl' 0 /\
       rep (out_fzero (inductionFactors (rt_opts rt) (rt_B rt) (Fin r) (Fin chord) (Fin Rhub) (Fin Rtip) (Fin v) cl' cd' (Fin Vx) (Fin Vy))) 0).
Proof.
  intros Hn Hb Hz Er Ec Ex Ey Eh ET Erho HB Hh HT Hch Hrho Haf S QT. assert (Hn1 : 1 / 10 < npi) by lra.
  unfold solve_station in S. destruct (rt_iterRe rt) as [|m] eqn:Em; [discriminate S|].
  apply bind_ok in S. destruct S as (phi & H1 & S). destruct (solve_finite _ _ _ _ Hn1 Hb H1) as (v & ->).
  apply bind_ok in S. destruct S as (l0 & SL & SN).
  apply nan_guard_cases in SN. destruct SN as [[_ ->]|[_ [_ ->]]]; [|cbn [o_Tp] in QT; apply rep_zero_val in QT; auto].
  unfold loads in SL. destruct (andb _ _); [|apply ok_inj in SL; subst l0; cbn in QT; apply rep_zero_val in QT; auto].
  apply bind_ok in SL. destruct SL as (ind & SI & SL). apply bind_ok in SI. destruct SI as (out & SB & SI).
  unfold runBEM in SB. rewrite Em in SB. apply ok_inj in SB. destruct (bem_loop rt sc (Fin v) m) as ((((fz & a) & ap) & cl) & cd) eqn:EL.
  subst out. apply ok_inj in SI. subst ind. cbv beta iota zeta in SL.
  destruct (loop_coefficients _ _ _ _ _ _ _ _ _ EL) as ((al0 & Re0 & EA) & EI).
  assert (Z : errf rt sc m (Fin v) = fz) by (unfold errf; rewrite EL; reflexivity).
  destruct (relativeWind (Fin v) a ap (s_Vx sc) (s_Vy sc) (rt_pitch rt) (s_chord sc) (s_theta sc) (rt_rho rt) (rt_mu rt)) as ((alpha & W) & Re) eqn:EW.
  apply ok_inj in SL. rewrite <- SL in QT. cbn [o_Tp] in QT. cbn [nmul nsub nadd ncos nsin ofR fl_arith] in QT.
  destruct (rep_mul_inv _ _ _ QT) as (x & c & QX & QC & ->). destruct (rep_mul_inv _ _ _ QX) as (ct & q & QCT & QQ & ->).
  destruct (rep_mul_inv _ _ _ QQ) as (hr & ww & QH & QW & ->). destruct (rep_mul_inv _ _ _ QW) as (w & w' & QW1 & QW2 & ->).
  rewrite <- (rep_fun _ _ _ QW1 QW2) in *. clear w' QW2.
  assert (Ehr : hr = 1 / 2 * rho). { rewrite Erho in QH. apply (rep_fun _ _ _ QH). reps. } subst hr.
  rewrite Ec in QC. assert (c = chord) by exact (rep_fun _ _ _ QC (rep_Fin _)). subst c.
  assert (Haf' := Haf al0 Re0). rewrite EA in Haf'. cbn [fst snd] in Haf'. destruct Haf' as (Qcl & cdr & Qcd & Hcd).
  assert (Ect : ct = 0 * sin v - cdr * cos v) by (apply (rep_fun _ _ _ QCT); reps). subst ct.
  right. exists v, cd, cdr, (1 / 2 * rho * (w * w) * chord). split; [exact Hcd|]. split; [exact Qcd|]. split.
  { apply Rmult_le_pos; [|exact Hch]. apply Rmult_le_pos; [lra|]. pose proof (Rle_0_sqr w). unfold Rsqr in *. lra. }
  split; [ring|].
  destruct (solve_bracket _ _ _ _ Hn1 Hb H1) as (lo & hi & D & [(E & v' & Ev & Hv)|(E & Ev)]); [|].
  2:{ injection Ev; intros ->. left. split; [reflexivity|]. destruct (wakerotation (rt_opts rt)) eqn:Hw; [exfalso|reflexivity].
    rewrite (zero_angle_ap _ _ _ _ _ _ _ _ _ _ _ _ _ Hw EI) in EW.
    pose proof (nan_wind (Fin 0) a (s_Vx sc) (s_Vy sc) (rt_pitch rt) (s_chord sc) (s_theta sc) (rt_rho rt) (rt_mu rt)) as N.
    rewrite EW in N. cbn [fst snd] in N. subst W. discriminate QW1. }
  injection Ev; intros <-. right. exists lo, hi, m, cl. split; [exact D|]. split; [exact Hv|]. split; [exact Qcl|].
  rewrite Er, Ec, Ex, Ey, Eh, ET in EI. rewrite EI. unfold out_fzero. cbn [fst]. rewrite <- Z. exact (Hz _ _ _ _ E).
Qed.

Section Signs.
Variables (npi : R) (bq : rootfinder fl) (rt : rotor fl) (sc : sect fl) (l : sload fl) (r chord Vx Vy Rhub Rtip rho Tp : R).
Hypothesis Hn : 3 < npi < PI.
Hypothesis Hb : root_inside bq.
Hypothesis Hz : finds_zeros bq.
Hypothesis Er : s_r sc = Fin r.
Hypothesis Ec : s_chord sc = Fin chord.
Hypothesis Ex : s_Vx sc = Fin Vx.
Hypothesis Ey : s_Vy sc = Fin Vy.
Hypothesis Eh : rt_Rhub rt = Fin Rhub.
Hypothesis ET : rt_Rtip rt = Fin Rtip.
Hypothesis Erho : rt_rho rt = Fin rho.
Hypothesis HB : (1 <= rt_B rt)%nat.
Hypothesis Hh : 0 < Rhub < r.
Hypothesis HT : r < Rtip.
Hypothesis Hch : 0 <= chord.
Hypothesis Hrho : 0 <= rho.
Hypothesis Haf : no_lift (s_af sc).
Hypothesis S : solve_station npi bq rt true sc = Ok l.
Hypothesis QT : rep (o_Tp l) Tp.

Lemma drag_zero v cl' cd' cd : rep cl' 0 -> rep cd' cd -> 0 <= cd -> 0 < v < PI -> cos v <> 0 -> cos v * (Vx * Vy) < 0 ->
  rep (out_fzero (inductionFactors (rt_opts rt) (rt_B rt) (Fin r) (Fin chord) (Fin Rhub) (Fin Rtip) (Fin v) cl' cd' (Fin Vx) (Fin Vy))) 0 -> False.
Proof.
  intros Qcl Qcd Hcd Hv Hc Hs Q.
  assert (Hin : inside (rt_B rt) r Rhub Rtip v) by (unfold inside; auto).
  destruct (drag_no_zero (rt_opts rt) (rt_B rt) r chord Rhub Rtip v cd Vx Vy Hin Hch Hcd Hc Hs) as (Hk & HP).
  assert (VN : Vx <> 0 /\ Vy <> 0) by (split; intros Z; rewrite Z in Hs; lra). destruct VN as (Nx & Ny).
  pose proof (fzero_transfer (rt_opts rt) (rt_B rt) r chord Rhub Rtip v 0 cd Vx Vy _ _ _ _ _ _ _ _ _ (rep_Fin _) (rep_Fin _) (rep_Fin _) (rep_Fin _) (rep_Fin _)
       Qcl Qcd (rep_Fin _) (rep_Fin _) Hin Hc Nx Ny ltac:(lra)) as TF.
  pose proof (rep_fun _ _ _ TF Q). lra.
Qed.

(** Wind and rotation of the same sign: the drag brakes. *)
Lemma drag_brakes : 0 < Vx * Vy -> Tp <= 0.
Proof.
  intros HV. pose proof PI_RGT_0 as HPI.
  destruct (drag_station_cases npi bq rt sc l r chord Vx Vy Rhub Rtip rho Tp) as [->|(v & cd' & cd & q & Hcd & Qcd & Hq & -> & D)]; try assumption; [lra|].
  assert (M : 0 <= cos v -> - cos v * cd * q <= 0).
  { intros Hc. assert (0 <= cos v * cd * q) by (apply Rmult_le_pos; [apply Rmult_le_pos|]; lra). lra. }
  destruct D as [(-> & _)|(lo & hi & m & cl' & D & Hv & Qcl & Q)]; [apply M; rewrite cos_0; lra|].
  destruct (Rle_lt_dec 0 (cos v)) as [Hc|Hc]; [auto|exfalso].
  destruct D as [HS|HS HN HP|HS HN].
  - assert (0 < cos v) by (apply cos_gt_0; lra). lra.
  - assert (0 < cos v) by (apply cos_gt_0; lra). lra.
  - apply (drag_zero v cl' cd' cd Qcl Qcd Hcd); [lra|lra|nra|exact Q].
Qed.

(** Opposite signs, with a loss correction and the wake rotation on: the drag drives. *)
Lemma drag_drives : Vx * Vy < 0 -> losses (rt_opts rt) -> wakerotation (rt_opts rt) = true -> 0 <= Tp.
Proof.
  intros HV HL HW. pose proof PI_RGT_0 as HPI.
  destruct (drag_station_cases npi bq rt sc l r chord Vx Vy Rhub Rtip rho Tp) as [->|(v & cd' & cd & q & Hcd & Qcd & Hq & -> & D)]; try assumption; [lra|].
  destruct D as [(_ & F)|(lo & hi & m & cl' & D & Hv & Qcl & Q)]; [congruence|].
  destruct (Rle_lt_dec (cos v) 0) as [Hc|Hc].
  { assert (0 <= - cos v * cd * q) by (apply Rmult_le_pos; [apply Rmult_le_pos|]; lra). lra. }
  exfalso. assert (Hs : cos v * (Vx * Vy) < 0) by nra.
  destruct D as [HS|HS HN HP|HS HN].
  - apply (drag_zero v cl' cd' cd Qcl Qcd Hcd); [lra|lra|exact Hs|exact Q].
  - replace v with (- - v) in Q by ring. rewrite residual_nan in Q; [discriminate Q|assumption|assumption|assumption|lra|exact HL].
  - apply (drag_zero v cl' cd' cd Qcl Qcd Hcd); [lra|lra|exact Hs|exact Q].
Qed.
End Signs.
