(** Property theorems for the induction factors and the relative wind,
    ccblade/src/bem.f90 (C13-C19). *)
From Coquelicot Require Import Coquelicot.
From Coq Require Import Reals Bool Arith Lia Lra.
From Verif Require Import Prelim Num Bem IndSpec IndProofs IndSmooth FlProofs.
Open Scope R_scope.

Definition all_on : bemopts := mkOpts true true true true.

(** A station at 50 m of a 63 m blade, three blades, inflow angle 0.1 rad: used as
    the witness for the hypotheses below. *)
Example inside_example : inside 3 50 1.5 63 0.1.
Proof. pose proof PI2_3_2. unfold inside. repeat split; lra || lia. Qed.

(** C13. The loss factor used by the routine is Prandtl's, lies in (0, 1], is
    below 1 when a correction is on and is 1 when both are off. *)
Theorem C13_loss_factor : forall o B (r chord Rhub Rtip phi cl cd : R), inside B r Rhub Rtip phi ->
  let F := l_F (bem_locals o B r chord Rhub Rtip phi cl cd) in
  F = lossF o B r Rhub Rtip phi /\ 0 < F <= 1 /\
  (tipLoss o = true \/ hubLoss o = true -> F < 1) /\
  (tipLoss o = false -> hubLoss o = false -> F = 1).
Proof. exact loss_factor. Qed.
Print Assumptions C13_loss_factor.

(** C13. No division by zero, invalid square root or arc cosine occurs: run on
    numbers with NaN, infinities and signed zero, the routine returns the same
    finite numbers as in exact arithmetic. *)
Theorem C13_no_invalid_operation : forall o B (r chord Rhub Rtip phi cl cd Vx Vy fz a ap : R),
  inside B r Rhub Rtip phi -> cos phi <> 0 -> Vx <> 0 -> Vy <> 0 ->
  - 1 < loading o B r chord Rhub Rtip phi cl cd ->
  (wakerotation o = true -> loading_t o B r chord Rhub Rtip phi cl cd <> 1) ->
  inductionFactors o B r chord Rhub Rtip phi cl cd Vx Vy = (fz, a, ap) ->
  exists fz' a' ap',
    inductionFactors o B (Fin r) (Fin chord) (Fin Rhub) (Fin Rtip) (Fin phi) (Fin cl) (Fin cd) (Fin Vx) (Fin Vy)
      = (fz', a', ap') /\ rep fz' fz /\ rep a' a /\ rep ap' ap.
Proof. exact ind_transfer. Qed.
Print Assumptions C13_no_invalid_operation.

(** Hypotheses of C13-C18 are met by a section without lift and drag (k = k' = 0)... *)
Example ind_hyps_example : loading all_on 3 50 4 1.5 63 0.1 0 0 = 0 /\ loading_t all_on 3 50 4 1.5 63 0.1 0 0 = 0.
Proof. unfold loading, loading_t, coef_n, coef_t, Rdiv; simpl. split; ring. Qed.

(** ... and by a heavily loaded one: inflow angle 90 degrees, losses off, k = 5, beyond the switch. *)
Example ind_hyps_example2 :
  inside 2 1 0.5 3 (PI / 2) /\ loading (mkOpts true false false true) 2 1 PI 0.5 3 (PI / 2) 0 20 = 5 /\
  1 / 1000000 <= Rabs (band (lossF (mkOpts true false false true) 2 1 0.5 3 (PI / 2)) 5).
Proof.
  pose proof PI_RGT_0. unfold inside. split; [repeat split; lra || lia|].
  unfold loading, lossF, solidity, coef_n; cbn [useCd hubLoss tipLoss]. rewrite sin_PI2, cos_PI2. simpl INR.
  split; [field; lra|]. unfold band. rewrite Rabs_right; lra.
Qed.

(** C14. Axial induction balances blade-element thrust with momentum theory up to
    k = 2/3 and with Buhl's curve beyond, outside the guarded band. *)
Theorem C14_axial_balance : forall o B (r chord Rhub Rtip phi cl cd Vx Vy fz a ap : R),
  inside B r Rhub Rtip phi ->
  inductionFactors o B r chord Rhub Rtip phi cl cd Vx Vy = (fz, a, ap) ->
  let k := loading o B r chord Rhub Rtip phi cl cd in
  let F := lossF o B r Rhub Rtip phi in
  (k <= 2 / 3 -> k <> - 1 -> blade_CT o B r chord phi cl cd a = momentum_CT F a) /\
  (2 / 3 < k -> 1 / 1000000 <= Rabs (band F k) -> blade_CT o B r chord phi cl cd a = buhl_CT F a).
Proof. exact momentum_balance. Qed.
Print Assumptions C14_axial_balance.

(** C14. Tangential induction balances the blade-element torque. *)
Theorem C14_tangential_balance : forall o B (r chord Rhub Rtip phi cl cd Vx Vy fz a ap : R),
  inside B r Rhub Rtip phi -> wakerotation o = true -> cos phi <> 0 ->
  loading_t o B r chord Rhub Rtip phi cl cd <> 1 ->
  inductionFactors o B r chord Rhub Rtip phi cl cd Vx Vy = (fz, a, ap) ->
  1 + ap <> 0 /\ ap / (1 + ap) = loading_t o B r chord Rhub Rtip phi cl cd /\
  solidity B chord r * coef_t (useCd o) cl cd phi * (1 + ap)
    = 4 * lossF o B r Rhub Rtip phi * sin phi * cos phi * ap.
Proof. exact tangential_balance. Qed.
Print Assumptions C14_tangential_balance.

(** C15. a < 1; at most 2/5 up to the switch, above 2/5 beyond it (within the
    guarded band, above 2/5 - 1e-6). *)
Theorem C15_a_below_one : forall o B (r chord Rhub Rtip phi cl cd Vx Vy fz a ap : R),
  inside B r Rhub Rtip phi ->
  inductionFactors o B r chord Rhub Rtip phi cl cd Vx Vy = (fz, a, ap) ->
  let k := loading o B r chord Rhub Rtip phi cl cd in
  let F := lossF o B r Rhub Rtip phi in
  - 1 < k ->
  a < 1 /\ (k <= 2 / 3 -> a <= 2 / 5) /\
  (2 / 3 < k -> 1 / 1000000 <= Rabs (band F k) -> 2 / 5 < a) /\
  (2 / 3 < k -> 2 / 5 - 1 / 1000000 < a).
Proof. exact a_below_one. Qed.
Print Assumptions C15_a_below_one.

(** C15. More loading (more chord, lift or drag), more induction. *)
Theorem C15_a_increasing : forall o B (r Rhub Rtip phi : R) chord cl cd Vx Vy fz a ap chord' cl' cd' Vx' Vy' fz' a' ap',
  inside B r Rhub Rtip phi ->
  inductionFactors o B r chord Rhub Rtip phi cl cd Vx Vy = (fz, a, ap) ->
  inductionFactors o B r chord' Rhub Rtip phi cl' cd' Vx' Vy' = (fz', a', ap') ->
  let k := loading o B r chord Rhub Rtip phi cl cd in
  let k' := loading o B r chord' Rhub Rtip phi cl' cd' in
  let F := lossF o B r Rhub Rtip phi in
  - 1 < k -> k < k' ->
  (2 / 3 < k -> 1 / 1000000 <= Rabs (band F k)) -> (2 / 3 < k' -> 1 / 1000000 <= Rabs (band F k')) ->
  a < a'.
Proof. exact a_increasing. Qed.
Print Assumptions C15_a_increasing.

(** C16. Unless the guarded band covers the switch, the axial induction is
    continuously differentiable around k = 2/3: with continuous partial derivatives,
    9/25 with respect to loading and 0 with respect to the loss factor at the switch. *)
Theorem C16_smooth_switch : forall F0, 0 < F0 <= 1 -> 1 / 1000000 < Rabs (band F0 (2 / 3)) ->
  exists Dk DF : R -> R -> R,
    continuity_2d_pt Dk (2 / 3) F0 /\ continuity_2d_pt DF (2 / 3) F0 /\
    Dk (2 / 3) F0 = 9 / 25 /\ DF (2 / 3) F0 = 0 /\
    locally_2d (fun k F => forall o B (r chord Rhub Rtip phi cl cd Vx Vy : R -> R) t k' F',
      locally t (fun s => inside B (r s) (Rhub s) (Rtip s) (phi s)) ->
      loading o B (r t) (chord t) (Rhub t) (Rtip t) (phi t) (cl t) (cd t) = k ->
      lossF o B (r t) (Rhub t) (Rtip t) (phi t) = F ->
      is_derive (fun s => loading o B (r s) (chord s) (Rhub s) (Rtip s) (phi s) (cl s) (cd s)) t k' ->
      is_derive (fun s => lossF o B (r s) (Rhub s) (Rtip s) (phi s)) t F' ->
      is_derive (fun s => out_a (inductionFactors o B (r s) (chord s) (Rhub s) (Rtip s) (phi s)
                                   (cl s) (cd s) (Vx s) (Vy s))) t (Dk k F * k' + DF k F * F')) (2 / 3) F0.
Proof. exact a_smooth. Qed.
Print Assumptions C16_smooth_switch.

Example C16_example : 0 < 1 <= 1 /\ 1 / 1000000 < Rabs (band 1 (2 / 3)).
Proof. split; [lra|]. unfold band. rewrite Rabs_right; lra. Qed.

(** C16, refuted as stated for all loss factors: at loss factor 5/6 the guarded band covers the
    switch, and the induction has a kink there (slopes 0.36 and 0.72 per unit loading). *)
Theorem C16_all_loss_factors_refuted :
  exists o B (r chord Rhub Rtip phi cl cd : R),
  inside B r Rhub Rtip phi /\
  loading o B r chord Rhub Rtip phi cl cd = 2 / 3 /\
  lossF o B r Rhub Rtip phi = 5 / 6 /\
  ~ ex_derive (fun cd => out_a (inductionFactors o B r chord Rhub Rtip phi cl cd 1 1)) cd.
Proof. exact (ex_intro _ _ (ex_intro _ _ (ex_intro _ _ (ex_intro _ _ (ex_intro _ _ (ex_intro _ _ (ex_intro _ _
  (ex_intro _ _ (ex_intro _ _ kink_refuted))))))))). Qed.
Print Assumptions C16_all_loss_factors_refuted.

(** C17. In the guarded band the exact solution of Buhl's equation in [2/5, 1) exists, and the
    returned value differs from it by at most |band| < 1e-6 (hence by 0 at the centre). *)
Theorem C17_guard_error : forall o B (r chord Rhub Rtip phi cl cd Vx Vy fz a ap : R),
  inside B r Rhub Rtip phi ->
  inductionFactors o B r chord Rhub Rtip phi cl cd Vx Vy = (fz, a, ap) ->
  let k := loading o B r chord Rhub Rtip phi cl cd in
  let F := lossF o B r Rhub Rtip phi in
  2 / 3 < k -> Rabs (band F k) < 1 / 1000000 ->
  (exists a0, 2 / 5 <= a0 < 1 /\ blade_CT o B r chord phi cl cd a0 = buhl_CT F a0) /\
  (forall a0, 2 / 5 <= a0 < 1 -> blade_CT o B r chord phi cl cd a0 = buhl_CT F a0 ->
     Rabs (a - a0) <= Rabs (band F k)).
Proof. exact guard_error. Qed.
Print Assumptions C17_guard_error.

Example C17_example : (* loss factor 1/2: the band is centred on k = 16/9 *)
  2 / 3 < 16 / 9 /\ band (1 / 2) (16 / 9) = 0.
Proof. unfold band. lra. Qed.

(** C18. A zero residual closes the velocity triangle, and every branch of the
    relative-wind routine returns its hypotenuse (up to sign). *)
Theorem C18_velocity_triangle : forall o B (r chord Rhub Rtip phi cl cd Vx Vy a ap : R),
  inside B r Rhub Rtip phi -> cos phi <> 0 -> Vx <> 0 -> Vy <> 0 ->
  - 1 < loading o B r chord Rhub Rtip phi cl cd ->
  loading_t o B r chord Rhub Rtip phi cl cd <> 1 ->
  inductionFactors o B r chord Rhub Rtip phi cl cd Vx Vy = (0, a, ap) ->
  1 + ap <> 0 /\
  sin phi / (1 - a) = cos phi / (Vy / Vx * (1 + ap)) /\
  forall pitch theta rho mu alpha W Re,
  relativeWind phi a ap Vx Vy pitch chord theta rho mu = (alpha, W, Re) ->
  (0 < Vx -> W * sin phi = Vx * (1 - a) /\ W * cos phi = Vy * (1 + ap)) /\
  (Vx < 0 -> Rabs W * sin phi = - (Vx * (1 - a)) /\ Rabs W * cos phi = - (Vy * (1 + ap))) /\
  0 < Rabs W.
Proof. exact residual_triangle. Qed.
Print Assumptions C18_velocity_triangle.

Example C18_example : (* no lift, no drag: 45 degrees, Vx = Vy *)
  exists a ap, inductionFactors all_on 3 50 4 1.5 63 (PI / 4) 0 0 8 8 = (0, a, ap).
Proof.
  assert (Hin : inside 3 50 1.5 63 (PI / 4)) by (pose proof PI_RGT_0; unfold inside; repeat split; lra || lia).
  assert (Hc : cos (PI / 4) <> 0) by (apply Rgt_not_eq, cos_gt_0; pose proof PI_RGT_0; lra).
  exists 0, 0. rewrite ind_pos by assumption. rewrite kp_spec by assumption.
  replace (loading all_on 3 50 4 1.5 63 (PI / 4) 0 0) with 0 by (unfold loading, coef_n, Rdiv; simpl; ring).
  replace (loading_t all_on 3 50 4 1.5 63 (PI / 4) 0 0) with 0 by (unfold loading_t, coef_t, Rdiv; simpl; ring).
  rewrite axial_low by lra. cbn [wakerotation all_on]. rewrite sin_cos_PI4.
  repeat apply (f_equal2 pair); field.
Qed.

(** C19. The switches, for every carrier of numbers. *)
Theorem C19_usecd_off : forall o B (r chord Rhub Rtip phi cl cd cd' Vx Vy : fl), useCd o = false ->
  inductionFactors o B r chord Rhub Rtip phi cl cd Vx Vy = inductionFactors o B r chord Rhub Rtip phi cl cd' Vx Vy.
Proof. exact switch_cd. Qed.
Print Assumptions C19_usecd_off.

Theorem C19_wakerotation_off : forall o B (r chord Rhub Rtip phi cl cd Vx Vy : fl), wakerotation o = false ->
  out_ap (inductionFactors o B r chord Rhub Rtip phi cl cd Vx Vy) = Fin 0.
Proof. exact switch_wake. Qed.
Print Assumptions C19_wakerotation_off.

Theorem C19_tiploss_off : forall o B (r chord Rhub Rtip Rtip' phi cl cd Vx Vy : fl), tipLoss o = false ->
  inductionFactors o B r chord Rhub Rtip phi cl cd Vx Vy = inductionFactors o B r chord Rhub Rtip' phi cl cd Vx Vy.
Proof. exact switch_tip. Qed.
Print Assumptions C19_tiploss_off.

Theorem C19_hubloss_off : forall o B (r chord Rhub Rhub' Rtip phi cl cd Vx Vy : fl), hubLoss o = false ->
  inductionFactors o B r chord Rhub Rtip phi cl cd Vx Vy = inductionFactors o B r chord Rhub' Rtip phi cl cd Vx Vy.
Proof. exact switch_hub. Qed.
Print Assumptions C19_hubloss_off.
