(** Property theorems for blade geometry, wind components and load integration
    in ccblade/src/bem.f90 (C07-C12, C67). *)
From Coquelicot Require Import Coquelicot.
From Coq Require Import Reals List Bool Arith Lia Lra.
From Verif Require Import Prelim CSystem CSystemSpec Num Bem BemGeomSpec BemGeomProofs.
Import ListNotations.
Open Scope R_scope.

(** C07. At every station the wind components are the first two components of the
    vector obtained by the documented chain of frame conversions. Angles in degrees. *)
Theorem C07_wind_is_frame_chain : forall n r precurve presweep precone yaw tilt azimuth
    Uinf OmegaRPM hubHt shearExp i Vx Vy x y z cone s,
  windComponents n r precurve presweep (radians precone) (radians yaw) (radians tilt) (radians azimuth)
    Uinf OmegaRPM hubHt shearExp = (Vx, Vy) ->
  defineCurvature n r precurve presweep (radians precone) = (x, y, z, cone, s) ->
  let p := station_az precone (precurve i) (presweep i) (r i) in
  let h := height azimuth tilt p in
  (0 < 1 + h / hubHt \/ shearExp = 0) ->
  let v := add3 (wind_in_blade (sheared Uinf h hubHt shearExp) yaw tilt azimuth (degrees (cone i)))
                (rotation_in_blade (OmegaRPM * PI / 30) (degrees (cone i)) p) in
  Vx i = c1 v /\ Vy i = c2 v.
Proof. exact wind_chain. Qed.
Print Assumptions C07_wind_is_frame_chain.

(** Both hypotheses of C07 are met by every call: the routine is total, and a
    station above the ground satisfies the guard. *)
Example C07_example :
  let p := station_az 2.5 0 0 40 in
  (exists Vx Vy, windComponents 3 (fun i => INR i + 1) (fun _ => 0) (fun _ => 0)
     (radians 2.5) (radians 5) (radians 3) (radians 20) 10 12 90 0.2 = (Vx, Vy)) /\
  0 < 1 + height 0 0 p / 90.
Proof.
  intros p. split; [apply wind_total|]. rewrite height_c.
  pose proof (station_az_coords 2.5 0 0 40) as E. fold p in E.
  generalize dependent p. intros p E. unfold coords in E.
  injection E; intros Ez Ey Ex. rewrite Ex, Ey, Ez.
  replace (radians 0) with 0 by (unfold radians; ring). rewrite sin_0, cos_0.
  assert (0 <= cos (radians 2.5)).
  { unfold radians. pose proof PI_RGT_0. apply cos_ge_0; lra. }
  lra.
Qed.

(** C08 (wind part; the loads follow in PropsBlade). Without tilt, yaw and shear the
    wind components do not depend on azimuth or hub height... *)
Theorem C08_wind_axisymmetric : forall n r precurve presweep precone az az' U rpm hub hub' Vx Vy Vx' Vy' i,
  windComponents n r precurve presweep precone 0 0 az U rpm hub 0 = (Vx, Vy) ->
  windComponents n r precurve presweep precone 0 0 az' U rpm hub' 0 = (Vx', Vy') ->
  Vx i = Vx' i /\ Vy i = Vy' i.
Proof. exact axisym. Qed.
Print Assumptions C08_wind_axisymmetric.

(** ... and have this closed form. *)
Theorem C08_wind_closed_form : forall n r precurve presweep precone az U rpm hub Vx Vy x y z cone s i,
  windComponents n r precurve presweep precone 0 0 az U rpm hub 0 = (Vx, Vy) ->
  defineCurvature n r precurve presweep precone = (x, y, z, cone, s) ->
  Vx i = U * cos (cone i) - rpm * PI / 30 * y i * sin (cone i) /\ Vy i = rpm * PI / 30 * z i.
Proof. exact wind_axisymmetric. Qed.
Print Assumptions C08_wind_closed_form.

(** C09. Straight blade: cone = precone, path length = difference of radii,
    azimuthal radius = r cos(precone). *)
Theorem C09_straight_blade : forall n r precurve presweep precone x y z cone s,
  (2 <= n)%nat -> - 180 < precone <= 180 ->
  (forall j, (S j < n)%nat -> r j < r (S j)) ->
  (forall j, (j < n)%nat -> precurve j = 0) -> (forall j, (j < n)%nat -> presweep j = 0) ->
  defineCurvature n r precurve presweep (radians precone) = (x, y, z, cone, s) ->
  forall i, (i < n)%nat ->
    cone i = radians precone /\ s i = r i - r 0%nat /\
    z i = r i * cos (radians precone) /\ x i = - r i * sin (radians precone) /\ y i = 0.
Proof. exact straight_blade. Qed.
Print Assumptions C09_straight_blade.

Example C09_example :
  (2 <= 5)%nat /\ - 180 < 2.5 <= 180 /\ (forall j, (S j < 5)%nat -> INR j + 1 < INR (S j) + 1).
Proof. split; [lia|]. split; [lra|]. intros j _. rewrite S_INR. lra. Qed.

(** C10. The curvature routine places the stations as the frame conversion
    blade->azimuth does; the path coordinate is the length of the polygonal line
    through the stations, both in the blade frame and in the azimuth frame; it
    starts at 0, is monotone and at least the straight-line distance; distances from
    the rotor centre are kept. *)
Theorem C10_rigid_coning : forall n r precurve presweep precone x y z cone s,
  defineCurvature n r precurve presweep (radians precone) = (x, y, z, cone, s) ->
  (forall i, (x i, y i, z i) = coords (station_az precone (precurve i) (presweep i) (r i))) /\
  s 0%nat = 0 /\
  (forall i, s i = polyline (fun j => (x j, y j, z j)) i) /\
  (forall i, s i = polyline (fun j => coords (station (precurve j) (presweep j) (r j))) i) /\
  (forall i j, (i <= j)%nat -> s i <= s j) /\
  (forall i j, (i <= j)%nat -> dist3 (x j, y j, z j) (x i, y i, z i) <= s j - s i) /\
  (forall i, x i ^ 2 + y i ^ 2 + z i ^ 2 = precurve i ^ 2 + presweep i ^ 2 + r i ^ 2).
Proof. exact path_length. Qed.
Print Assumptions C10_rigid_coning.

Theorem C10_path_independent_of_precone : forall n r precurve presweep p1 p2,
  snd (defineCurvature n r precurve presweep p1) = snd (defineCurvature n r precurve presweep p2).
Proof. exact path_precone_indep. Qed.
Print Assumptions C10_path_independent_of_precone.

(** C67. The total cone angle at an end station is the inclination of the
    adjacent blade segment, at an interior station the mean of the two adjacent
    inclinations. *)
Theorem C67_total_cone : forall n r precurve presweep precone x y z cone s,
  (2 <= n)%nat ->
  defineCurvature n r precurve presweep precone = (x, y, z, cone, s) ->
  (forall i, (S i < n)%nat -> precurve i <> precurve (S i) \/ r i <> r (S i)) ->
  exists th : nat -> R,
    (forall i, (S i < n)%nat -> polar_angle (- (x (S i) - x i)) (z (S i) - z i) (th i)) /\
    cone 0%nat = th 0%nat /\ cone (n - 1)%nat = th (n - 2)%nat /\
    (forall i, (S (S i) < n)%nat -> cone (S i) = (th i + th (S i)) / 2).
Proof. exact total_cone. Qed.
Print Assumptions C67_total_cone.

Example C67_example : forall i, (S i < 7)%nat -> INR i ^ 2 <> INR (S i) ^ 2 \/ INR i <> INR (S i).
Proof. intros i _. right. rewrite S_INR. lra. Qed.

(** C11. Each integrated load is the integral, over the path length from hub to
    tip, of the piecewise-linear interpolant of its section quantity, with zero load
    at hub and tip. *)
Theorem C11_exact_integral : forall n Np Tp r precurve presweep precone Rhub Rtip precurveTip presweepTip
    rf cf wf Nf Tf x y z cone s T Y Z Q M,
  extends n Rhub r Rtip rf -> extends n 0 precurve precurveTip cf -> extends n 0 presweep presweepTip wf ->
  extends n 0 Np 0 Nf -> extends n 0 Tp 0 Tf ->
  increasing_upto (n + 1) rf ->
  defineCurvature (n + 2) rf cf wf precone = (x, y, z, cone, s) ->
  thrustTorque n Np Tp r precurve presweep precone Rhub Rtip precurveTip presweepTip = (T, Y, Z, Q, M) ->
  forall gT gY gZ gQ gM,
  interpolates (n + 1) s (fun i => Nf i * cos (cone i)) gT ->
  interpolates (n + 1) s Tf gY ->
  interpolates (n + 1) s (fun i => Nf i * sin (cone i)) gZ ->
  interpolates (n + 1) s (fun i => Tf i * z i) gQ ->
  interpolates (n + 1) s (fun i => Nf i * z i) gM ->
  is_RInt gT 0 (s (n + 1)%nat) T /\ is_RInt gY 0 (s (n + 1)%nat) Y /\ is_RInt gZ 0 (s (n + 1)%nat) Z /\
  is_RInt gQ 0 (s (n + 1)%nat) Q /\ is_RInt gM 0 (s (n + 1)%nat) M.
Proof. exact loads_integral. Qed.
Print Assumptions C11_exact_integral.

(** The interpolants quantified over in C11 exist for every array of values. *)
Theorem C11_interpolants_exist : forall n rf cf wf precone x y z cone s (f : nat -> R),
  increasing_upto (n + 1) rf ->
  defineCurvature (n + 2) rf cf wf precone = (x, y, z, cone, s) ->
  exists g, interpolates (n + 1) s f g.
Proof. exact loads_interpolants_exist. Qed.
Print Assumptions C11_interpolants_exist.

Example C11_example : (* hub 1.5, stations 2, 3, 4, tip 4.5 *)
  exists rf, extends 3 1.5 (fun i => INR i + 2) 4.5 rf /\ increasing_upto (3 + 1) rf.
Proof.
  exists (pad 3 1.5 (fun i => INR i + 2) 4.5). split; [apply pad_extends|].
  intros i Hi. destruct i as [|[|[|[|]]]]; try lia; unfold pad; simpl; lra.
Qed.

(** C12. Linearity in (Np, Tp). *)
Theorem C12_linear : forall n Np Tp Np' Tp' a b r precurve presweep precone Rhub Rtip precurveTip presweepTip
    T Y Z Q M T' Y' Z' Q' M',
  thrustTorque n Np Tp r precurve presweep precone Rhub Rtip precurveTip presweepTip = (T, Y, Z, Q, M) ->
  thrustTorque n Np' Tp' r precurve presweep precone Rhub Rtip precurveTip presweepTip = (T', Y', Z', Q', M') ->
  thrustTorque n (fun i => a * Np i + b * Np' i) (fun i => a * Tp i + b * Tp' i)
    r precurve presweep precone Rhub Rtip precurveTip presweepTip
  = (a * T + b * T', a * Y + b * Y', a * Z + b * Z', a * Q + b * Q', a * M + b * M').
Proof. exact loads_linear. Qed.
Print Assumptions C12_linear.

(** C12. Thrust is non-negative for non-negative normal load and cone within 90 degrees. *)
Theorem C12_thrust_nonneg : forall n Np Tp r precurve presweep precone Rhub Rtip precurveTip presweepTip
    rf cf wf x y z cone s T Y Z Q M,
  extends n Rhub r Rtip rf -> extends n 0 precurve precurveTip cf -> extends n 0 presweep presweepTip wf ->
  defineCurvature (n + 2) rf cf wf precone = (x, y, z, cone, s) ->
  thrustTorque n Np Tp r precurve presweep precone Rhub Rtip precurveTip presweepTip = (T, Y, Z, Q, M) ->
  (forall i, (i < n)%nat -> 0 <= Np i) ->
  (forall i, (1 <= i <= n)%nat -> - PI / 2 <= cone i <= PI / 2) ->
  0 <= T.
Proof. exact thrust_nonneg. Qed.
Print Assumptions C12_thrust_nonneg.

Example C12_example : (* a straight blade coned by 2.5 degrees meets the cone hypothesis *)
  forall x y z cone s,
  defineCurvature 5 (fun i => INR i + 1) (fun _ => 0) (fun _ => 0) (radians 2.5) = (x, y, z, cone, s) ->
  forall i, (1 <= i <= 3)%nat -> - PI / 2 <= cone i <= PI / 2.
Proof.
  intros x y z cone s H i Hi.
  assert (Hr : forall j, (S j < 5)%nat -> INR j + 1 < INR (S j) + 1) by (intros j _; rewrite S_INR; lra).
  destruct (straight_blade 5 (fun i => INR i + 1) (fun _ => 0) (fun _ => 0) 2.5 x y z cone s) with (i := i)
    as [E _]; auto; try lia; try lra.
  rewrite E.
  unfold radians. pose proof PI_RGT_0. lra.
Qed.
