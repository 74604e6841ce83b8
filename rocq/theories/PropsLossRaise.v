(** Losses raise the induction (C135). *)
From Coquelicot Require Import Coquelicot.
From Coq Require Import Reals Bool Arith List Lra Lia.
From Verif Require Import Prelim Num Bem IndSpec IndProofs StationWitness AttachedSpec AttachedLoss AttachedProofs AttachedWitness LossRaiseSpec LossRaiseProofs.
Open Scope R_scope.

(** ** C135: at the same inflow angle and coefficients, switching on losses or moving tip and hub closer raises the induction *)

(** The axial induction, for a normal force that is not negative. The code replaces the empirical formula of high loading where its
    denominator nearly vanishes; that case is left out. *)
Theorem C135_axial : forall o o' B (r chord Rhub Rtip Rhub' Rtip' phi cl cd Vx Vy fz a ap fz' a' ap' : R), more_losses o o' -> closer r Rhub Rtip Rhub' Rtip' -> inside B r Rhub' Rtip' phi ->
  0 <= chord -> 0 <= coef_n (useCd o) cl cd phi -> clear_of_guard o B r chord Rhub Rtip phi cl cd -> clear_of_guard o' B r chord Rhub' Rtip' phi cl cd ->
  inductionFactors o B r chord Rhub Rtip phi cl cd Vx Vy = (fz, a, ap) -> inductionFactors o' B r chord Rhub' Rtip' phi cl cd Vx Vy = (fz', a', ap') -> 0 <= a <= a' /\ a' < 1.
Proof. exact raise_axial. Qed.
Print Assumptions C135_axial.

(** The residual and the tangential induction, for a tangential force that is not negative either and angles below 90 degrees. *)
Theorem C135_residual : forall o o' B (r chord Rhub Rtip Rhub' Rtip' phi cl cd Vx Vy fz a ap fz' a' ap' : R), more_losses o o' -> closer r Rhub Rtip Rhub' Rtip' -> inside B r Rhub' Rtip' phi ->
  0 <= chord -> 0 <= coef_n (useCd o) cl cd phi -> clear_of_guard o B r chord Rhub Rtip phi cl cd -> clear_of_guard o' B r chord Rhub' Rtip' phi cl cd ->
  phi < PI / 2 -> 0 < Vx -> 0 < Vy -> 0 <= coef_t (useCd o) cl cd phi ->
  inductionFactors o B r chord Rhub Rtip phi cl cd Vx Vy = (fz, a, ap) -> inductionFactors o' B r chord Rhub' Rtip' phi cl cd Vx Vy = (fz', a', ap') ->
  fz <= fz' /\ (loading_t o' B r chord Rhub' Rtip' phi cl cd < 1 -> 0 <= ap <= ap').
Proof. exact raise_rest. Qed.
Print Assumptions C135_residual.

(** A loss that is new, or whose end of the blade has moved, raises the axial induction strictly, for a positive chord and normal force. *)
Theorem C135_strict : forall o o' B (r chord Rhub Rtip Rhub' Rtip' phi cl cd Vx Vy fz a ap fz' a' ap' : R), more_losses o o' -> closer r Rhub Rtip Rhub' Rtip' -> loss_felt o o' Rhub Rtip Rhub' Rtip' ->
  inside B r Rhub' Rtip' phi -> 0 < chord -> 0 < coef_n (useCd o) cl cd phi -> clear_of_guard o B r chord Rhub Rtip phi cl cd -> clear_of_guard o' B r chord Rhub' Rtip' phi cl cd ->
  inductionFactors o B r chord Rhub Rtip phi cl cd Vx Vy = (fz, a, ap) -> inductionFactors o' B r chord Rhub' Rtip' phi cl cd Vx Vy = (fz', a', ap') -> 0 < a < a' /\ a' < 1.
Proof. exact raise_axial_strict. Qed.
Print Assumptions C135_strict.

(** Both losses on and the tip at 3 instead of 4, wake rotation: the induction rises to 4/25 and 3/25. *)
Example C135_example : let cl := stall_cl full_lift peak 0 in exists fz a ap fz',
  inductionFactors (mkOpts false false false true) 2 1 1 (1 / 2) 4 peak cl 0 1 1 = (fz, a, ap) /\ inductionFactors full 2 1 1 (1 / 2) 3 peak cl 0 1 1 = (fz', 4 / 25, 3 / 25) /\
  0 < a < 4 / 25 /\ 0 <= ap <= 3 / 25 /\ fz <= fz'.
Proof.
  intros cl. destruct peak_facts as ((P1 & P2) & S & C). pose proof PI_4 as P4. pose proof (lossy_unit peak ltac:(lra)) as U.
  assert (IN : inside 2 1 (1 / 2) 3 peak) by (apply ss_inside; lra). assert (CL : closer 1 (1 / 2) 4 (1 / 2) 3) by (unfold closer; lra).
  assert (IN0 : inside 2 1 (1 / 2) 4 peak) by (eapply inside_closer; eassumption).
  assert (ML : more_losses (mkOpts false false false true) full) by (repeat split; discriminate).
  pose proof (full_loading peak ltac:(lra)) as K. rewrite full_k_peak in K. fold cl in K.
  assert (CV : cl = 12 * PI / 35 * lossy peak) by (unfold cl, stall_cl, full_lift; rewrite ramp_high by lra; field).
  assert (CP : 0 < cl) by (rewrite CV; apply Rmult_lt_0_compat; [pose proof PI_RGT_0; lra|lra]).
  assert (K0 : loading (mkOpts false false false true) 2 1 1 (1 / 2) 4 peak cl 0 = 4 / 21 * lossy peak).
  { rewrite <- K. unfold loading, coef_n. cbn [useCd full]. change (lossF full 2 1 (1 / 2) 3 peak) with (lossy peak). unfold lossF. cbn [tipLoss hubLoss]. set (sg := solidity _ _ _). field. lra. }
  assert (KT : loading_t full 2 1 1 (1 / 2) 3 peak cl 0 = 3 / 28) by (rewrite lift_kp by (reflexivity || lra || exact IN); rewrite K, S, C; field).
  destruct (inductionFactors (mkOpts false false false true) 2 1 1 (1 / 2) 4 peak cl 0 1 1) as ((fz & a) & ap) eqn:E. exists fz, a, ap.
  destruct (inductionFactors full 2 1 1 (1 / 2) 3 peak cl 0 1 1) as ((fz' & a') & ap') eqn:E'. exists fz'. split; [reflexivity|].
  assert (V : a' = 4 / 25 /\ ap' = 3 / 25).
  { rewrite ind_pos in E' by exact IN. rewrite kp_spec in E' by (exact IN || lra). rewrite K, KT in E'. rewrite axial_low in E' by lra. cbn [wakerotation full] in E'.
    apply pair_equal_spec in E'. destruct E' as [E' <-]. apply pair_equal_spec in E'. destruct E' as [_ <-]. split; field. }
  destruct V as [-> ->]. split; [reflexivity|].
  assert (G : clear_of_guard (mkOpts false false false true) 2 1 1 (1 / 2) 4 peak cl 0) by (unfold clear_of_guard; rewrite K0; intros; lra).
  assert (G' : clear_of_guard full 2 1 1 (1 / 2) 3 peak cl 0) by (unfold clear_of_guard; rewrite K; intros; lra).
  assert (CN : 0 <= coef_n (useCd (mkOpts false false false true)) cl 0 peak) by (unfold coef_n; cbn [useCd]; rewrite C; lra).
  assert (CS : 0 < coef_n (useCd (mkOpts false false false true)) cl 0 peak) by (unfold coef_n; cbn [useCd]; rewrite C; lra).
  assert (FE : loss_felt (mkOpts false false false true) full (1 / 2) 4 (1 / 2) 3) by (left; split; [reflexivity|left; reflexivity]).
  assert (CT : 0 <= coef_t (useCd (mkOpts false false false true)) cl 0 peak) by (unfold coef_t; cbn [useCd]; rewrite S; lra).
  assert (P90 : peak < PI / 2) by lra. destruct (C135_strict _ _ _ _ _ _ _ _ _ _ _ _ _ _ _ _ _ _ _ _ ML CL FE IN Rlt_0_1 CS G G' E E') as [A _].
  destruct (C135_residual _ _ _ _ _ _ _ _ _ _ _ _ _ _ _ _ _ _ _ _ ML CL IN Rle_0_1 CN G G' P90 Rlt_0_1 Rlt_0_1 CT E E') as [Z T]. rewrite KT in T. specialize (T ltac:(lra)). auto.
Qed.
