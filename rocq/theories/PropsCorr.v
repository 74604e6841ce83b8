(** Property theorems about the 3-D correction: order of corrections (C129), stall delay (C130). *)
From Coq Require Import Reals List Lra Lia.
From Verif Require Import Prelim Polar PolarExt PolarSpec CorrSpec CorrProofs.
Import ListNotations.
Open Scope R_scope.

(** ** C129: the fitted line stays, and the order of corrections does not matter *)

(** For every routine that fits a line of least squares: two corrections with one linear range, which ends at or below both alpha_max_corr.
    The line fitted to the corrected lift is the line fitted before, and both orders give the same polar. *)
Theorem C129_order : forall polyfit p lo hi m c r1 c1 t1 a1 r2 c2 t2 a2, least_squares polyfit -> wf_polar p -> two_angles p lo hi -> hi <= a1 -> hi <= a2 ->
  0 < c1 -> 0 < c2 -> t1 <> 0 -> t2 <> 0 -> r1 <> 0 -> r2 <> 0 -> fitted polyfit p lo hi m c -> m <> 0 ->
  exists b1 b2 b, correction3D polyfit p r1 c1 t1 a1 lo hi = Ok b1 /\ correction3D polyfit p r2 c2 t2 a2 lo hi = Ok b2 /\
    fitted polyfit b1 lo hi m c /\
    correction3D polyfit b1 r2 c2 t2 a2 lo hi = Ok b /\ correction3D polyfit b2 r1 c1 t1 a1 lo hi = Ok b.
Proof. intros polyfit p lo hi m c r1 c1 t1 a1 r2 c2 t2 a2 F W T H1 H2 _ _. exact (order polyfit p lo hi m c r1 c1 t1 a1 r2 c2 t2 a2 F W T H1 H2). Qed.
Print Assumptions C129_order.

(** The amount by which the lift is corrected does not change when all lift coefficients are multiplied by one number. *)
Theorem C129_lift_times : forall polyfit p lo hi m c rR cr tsr amc s, least_squares polyfit -> wf_polar p -> two_angles p lo hi -> tsr <> 0 -> rR <> 0 -> 0 < cr ->
  fitted polyfit p lo hi m c -> m <> 0 -> s <> 0 ->
  exists b b', correction3D polyfit p rR cr tsr amc lo hi = Ok b /\ correction3D polyfit (lift_times s p) rR cr tsr amc lo hi = Ok b' /\
  forall i, (i < length (p_alpha p))%nat -> nth i (p_cl b') 0 - s * nth i (p_cl p) 0 = nth i (p_cl b) 0 - nth i (p_cl p) 0.
Proof. exact times. Qed.
Print Assumptions C129_lift_times.

(** ** C130: stall delay *)

(** Data with slope about 5.7 per radian and stall above 5 degrees, half way out the blade, chord 1/20 of the radius, tip-speed ratio 7: the lift is lowered. *)
Theorem C130_stall_delay_refuted : ~ stall_is_delayed.
Proof. exact x_lowered. Qed.
Print Assumptions C130_stall_delay_refuted.

(** Nor does it stay below the line. *)
Theorem C130_overshoot_refuted : exists p b i m c, wf_polar p /\ two_angles p (-5) 5 /\ fitted lsq p (-5) 5 m c /\ 4 < m <= 6 /\
  correction3D lsq p (13/240) (4/5) (12/5) 30 (-5) 5 = Ok b /\
  (i < length (p_alpha p))%nat /\ nth i (p_alpha p) 0 <= 30 /\ nth i (p_cl p) 0 < m * radians (nth i (p_alpha p) 0) + c < nth i (p_cl b) 0.
Proof. exact x_over. Qed.
Print Assumptions C130_overshoot_refuted.

(** When it holds: exactly when 1.6 (c/r) / 0.1267 (1 - x) / (1 + x), with x = (c/r)^(sqrt (1 + tsr^2) / (tsr r/R)), is between 1 and 1 + m. *)
Theorem C130_delayed_when : forall polyfit p rR cr tsr amc lo hi m c b i, wf_polar p -> 0 < rR -> 0 < cr -> 0 < tsr -> fitted polyfit p lo hi m c -> 0 < m ->
  correction3D polyfit p rR cr tsr amc lo hi = Ok b -> (i < length (p_alpha p))%nat -> nth i (p_alpha p) 0 <= amc ->
  let line := m * radians (nth i (p_alpha p) 0) + c in
  nth i (p_cl p) 0 < line ->
  let x := Rpower cr (sqrt (1 + tsr ^ 2) / (tsr * rR)) in
  (nth i (p_cl p) 0 <= nth i (p_cl b) 0 <= line <-> 1 <= 16 / 10 * cr / (1267 / 10000) * ((1 - x) / (1 + x)) <= 1 + m).
Proof.
  intros polyfit p rR cr tsr amc lo hi m c b i W Hr Hc Ht E Hm B Hi Ha line Hl x. pose proof (lift_low polyfit p rR cr tsr amc lo hi m c b i W Hr Ht E ltac:(lra) B Hi Ha) as Q.
  unfold gain in Q. fold x line in Q. set (g := 16 / 10 * cr / (1267 / 10000) * ((1 - x) / (1 + x))) in *. set (y := nth i (p_cl b) 0) in *. set (z := nth i (p_cl p) 0) in *.
  split; intros [A1 A2]; split.
  - destruct (Rle_lt_dec 1 g); [assumption|exfalso]. assert (0 <= m * (y - z)) by nra. nra.
  - destruct (Rle_lt_dec g (1 + m)); [assumption|exfalso]. assert (m * (y - z) <= m * (line - z)) by nra. nra.
  - destruct (Rle_lt_dec z y); [assumption|exfalso]. nra.
  - destruct (Rle_lt_dec y line); [assumption|exfalso]. assert (m * (line - z) < m * (y - z)) by nra. nra.
Qed.
Print Assumptions C130_delayed_when.

(** Where the chord is at most 1267/16000 (about 7.9 per cent) of the radius, lift below the line is always lowered. *)
Theorem C130_small_chord : forall polyfit p rR cr tsr amc lo hi m c b i, wf_polar p -> 0 < rR -> 0 < cr -> cr <= 1267 / 16000 -> 0 < tsr -> fitted polyfit p lo hi m c -> 0 < m ->
  correction3D polyfit p rR cr tsr amc lo hi = Ok b -> (i < length (p_alpha p))%nat -> nth i (p_alpha p) 0 <= amc ->
  nth i (p_cl p) 0 < m * radians (nth i (p_alpha p) 0) + c -> nth i (p_cl b) 0 < nth i (p_cl p) 0.
Proof.
  intros polyfit p rR cr tsr amc lo hi m c b i W Hr Hc Hs Ht E Hm B Hi Ha Hl. pose proof (lift_low polyfit p rR cr tsr amc lo hi m c b i W Hr Ht E ltac:(lra) B Hi Ha) as Q.
  pose proof (gain_small cr _ Hc Hs (expon_pos tsr rR Ht Hr)) as G. set (g := gain _ _) in *. set (y := nth i (p_cl b) 0) in *. set (z := nth i (p_cl p) 0) in *.
  assert (m * (y - z) < 0) by nra. nra.
Qed.
Print Assumptions C130_small_chord.

(** ** Concrete instances *)
Example C129_example : least_squares lsq /\ wf_polar x_polar /\ two_angles x_polar (-5) 5 /\ fitted lsq x_polar (-5) 5 x_slope 0 /\ 0 < x_slope /\ wf_polar (lift_times 2 x_polar).
Proof. exact (conj lsq_ok (conj x_wf (conj x_two (conj (x_fitted lsq lsq_ok) (conj (proj1 (proj2 x_rad)) (times_wf 2 _ x_wf)))))). Qed.

(** A chord of 1/10 of the radius, one tenth of the way out: the lift at 20 degrees goes up, and stays below the line. *)
Example C130_example : exists b, correction3D lsq x_polar (1/10) (1/10) (3/4) 30 (-5) 5 = Ok b /\ 1 < nth 2 (p_cl b) 0 < x_slope * radians 20.
Proof. exact x_raised. Qed.
Example C130_example_small : exists b, correction3D lsq x_polar (1/2) (1/20) 7 30 (-5) 5 = Ok b /\ nth 2 (p_cl b) 0 < 1.
Proof.
  destruct x_rad as (_ & Hm & _). pose proof (x_fitted lsq lsq_ok) as E. pose proof (corr_eq lsq x_polar (1/2) (1/20) 7 30 (-5) 5 x_slope 0 x_wf ltac:(lra) ltac:(lra) E ltac:(lra)) as B.
  eexists. split; [exact B|].
  exact (C130_small_chord lsq x_polar (1/2) (1/20) 7 30 (-5) 5 x_slope 0 _ 2 x_wf ltac:(lra) ltac:(lra) ltac:(lra) ltac:(lra) E Hm B ltac:(cbn; lia) ltac:(cbn; lra) x_line).
Qed.
