(** Model of the primal routines of ccblade/src/bem.f90.

    Exact arithmetic (see Num.v). Fortran arrays of length n are functions
    [nat -> R] of a 0-based index (Fortran index minus one). *)
From Coq Require Import Reals Bool Arith Lra.
From Verif Require Import Prelim Num.
Open Scope R_scope.

(** The switches useCd, hubLoss, tipLoss, wakerotation (bem.f90:30-31; the
    dictionary [bemoptions] of ccblade.py:569). *)
Record bemopts := mkOpts { useCd : bool; hubLoss : bool; tipLoss : bool; wakerotation : bool }.

Section Kernel.
Context {A : Type} `{Arith A}.
Local Open Scope num_scope.

(** Local values of inductionFactors up to the bem parameters: bem.f90:43-76. *)
Record bemlocals := mkLocals {
  l_sigma_p : A; l_sphi : A; l_cphi : A; l_cn : A; l_ct : A;
  l_Ftip : A; l_Fhub : A; l_F : A; l_k : A; l_kp : A }.

(** bem.f90:43-76. The literal pi is the real number PI. *)
Definition bem_locals (o : bemopts) (B : nat) (r chord Rhub Rtip phi cl cd : A) : bemlocals :=
  let pi := ofR PI in
  let sigma_p := ofR (INR B) / ofR 2 / pi * chord / r in
  let sphi := nsin phi in
  let cphi := ncos phi in
  let cn := if negb (useCd o) then cl * cphi else cl * cphi + cd * sphi in
  let ct := if negb (useCd o) then cl * sphi else cl * sphi - cd * cphi in
  let factortip := ofR (INR B) / ofR 2 * (Rtip - r) / (r * sphi) in
  let Ftip := if tipLoss o then ofR 2 / pi * nacos (nexp (- factortip)) else ofR 1 in
  let factorhub := ofR (INR B) / ofR 2 * (r - Rhub) / (Rhub * sphi) in
  let Fhub := if hubLoss o then ofR 2 / pi * nacos (nexp (- factorhub)) else ofR 1 in
  let F := Ftip * Fhub in
  let k := sigma_p * cn / ofR 4 / F / sphi / sphi in
  let kp := sigma_p * ct / ofR 4 / F / sphi / cphi in
  mkLocals sigma_p sphi cphi cn ct Ftip Fhub F k kp.

(** bem.f90:82-97: axial induction for phi > 0. *)
Definition axial_pos (k F : A) : A :=
  if nle k (ofR 2 / ofR 3) then k / (ofR 1 + k)
  else
    let g1 := ofR 2 * F * k - (ofR 10 / ofR 9 - F) in
    let g2 := ofR 2 * F * k - (ofR 4 / ofR 3 - F) * F in
    let g3 := ofR 2 * F * k - (ofR 25 / ofR 9 - ofR 2 * F) in
    if nlt (nabs g3) (ofR (1 / 1000000)) then ofR 1 - ofR 1 / ofR 2 / nsqrt g2
    else (g1 - nsqrt g2) / g3.

(** bem.f90:101-105: axial induction for phi <= 0. *)
Definition axial_neg (k : A) : A :=
  if nlt (ofR 1) k then k / (k - ofR 1) else ofR 0.

(** bem.f90:17-125, subroutine inductionFactors; returns (fzero, a, ap). *)
Definition inductionFactors (o : bemopts) (B : nat)
    (r chord Rhub Rtip phi cl cd Vx Vy : A) : A * A * A :=
  let L := bem_locals o B r chord Rhub Rtip phi cl cd in
  let sphi := l_sphi L in
  let cphi := l_cphi L in
  let k := l_k L in
  let pos := nlt (ofR 0) phi in
  let a := if pos then axial_pos k (l_F L) else axial_neg k in
  let ap0 := l_kp L / (ofR 1 - l_kp L) in
  let ap := if negb (wakerotation o) then ofR 0 else ap0 in
  let kp := if negb (wakerotation o) then ofR 0 else l_kp L in
  let lambda_r := Vy / Vx in
  let fzero :=
    if pos then sphi / (ofR 1 - a) - cphi / lambda_r * (ofR 1 - kp)
    else sphi * (ofR 1 - k) - cphi / lambda_r * (ofR 1 - kp) in
  (fzero, a, ap).

(** bem.f90:130-162, subroutine relativeWind; returns (alpha, W, Re). [x**2] is x*x. *)
Definition relativeWind (phi a ap Vx Vy pitch chord theta rho mu : A) : A * A * A :=
  let alpha := phi - (theta + pitch) in
  let W :=
    if nlt (ofR 10) (nabs a) then Vy * (ofR 1 + ap) / ncos phi
    else if nlt (ofR 10) (nabs ap) then Vx * (ofR 1 - a) / nsin phi
    else nsqrt ((Vx * (ofR 1 - a)) * (Vx * (ofR 1 - a)) + (Vy * (ofR 1 + ap)) * (Vy * (ofR 1 + ap))) in
  let Re := rho * W * chord / mu in
  (alpha, W, Re).

End Kernel.

Arguments bemlocals A : clear implicits.

(** Fortran/C atan2 on exact reals: atan2 y x. *)
Definition atan2 (y x : R) : R :=
  if rltb 0 x then atan (y / x)
  else if rltb x 0 then (if rleb 0 y then atan (y / x) + PI else atan (y / x) - PI)
  else if rltb 0 y then PI / 2
  else if rltb y 0 then - (PI / 2)
  else 0.

(** Fortran [x**y] for reals: C [pow]. [pow x 0 = 1] for every x. For y <> 0 and
    x <= 0 the value (0, NaN or infinite) is not modelled and set to 0: a
    station below ground level. Theorems that need y <> 0 assume x > 0. *)
Definition rpow (x y : R) : R :=
  if reqb y 0 then 1 else if rltb 0 x then Rpower x y else 0.

Definition arr := nat -> R.

(** bem.f90:166-207, subroutine defineCurvature (n >= 2). *)
Definition curv_x (r precurve : arr) (precone : R) : arr :=
  fun i => - r i * sin precone + precurve i * cos precone.
Definition curv_z (r precurve : arr) (precone : R) : arr :=
  fun i => r i * cos precone + precurve i * sin precone.
Definition curv_y (presweep : arr) : arr := presweep.

(** bem.f90:193-196 *)
Definition curv_cone (n : nat) (x_az z_az : arr) : arr :=
  fun i =>
    if Nat.eqb i 0 then atan2 (- (x_az 1%nat - x_az 0%nat)) (z_az 1%nat - z_az 0%nat)
    else if Nat.eqb i (n - 1) then
      atan2 (- (x_az (n - 1)%nat - x_az (n - 2)%nat)) (z_az (n - 1)%nat - z_az (n - 2)%nat)
    else
      1 / 2 * (atan2 (- (x_az i - x_az (i - 1)%nat)) (z_az i - z_az (i - 1)%nat)
             + atan2 (- (x_az (i + 1)%nat - x_az i)) (z_az (i + 1)%nat - z_az i)).

(** bem.f90:200-204 *)
Fixpoint curv_s (r precurve presweep : arr) (i : nat) : R :=
  match i with
  | O => 0
  | S j => curv_s r precurve presweep j
           + sqrt ((precurve (S j) - precurve j) ^ 2 + (presweep (S j) - presweep j) ^ 2
                   + (r (S j) - r j) ^ 2)
  end.

(** bem.f90:166-207; outputs (x_az, y_az, z_az, cone, s). *)
Definition defineCurvature (n : nat) (r precurve presweep : arr) (precone : R)
  : arr * arr * arr * arr * arr :=
  let x_az := curv_x r precurve precone in
  let z_az := curv_z r precurve precone in
  let y_az := curv_y presweep in
  (x_az, y_az, z_az, curv_cone n x_az z_az, curv_s r precurve presweep).

(** bem.f90:212-282, subroutine windComponents; outputs (Vx, Vy). *)
Definition windComponents (n : nat) (r precurve presweep : arr)
    (precone yaw tilt azimuth Uinf OmegaRPM hubHt shearExp : R) : arr * arr :=
  let sy := sin yaw in
  let cy := cos yaw in
  let st := sin tilt in
  let ct := cos tilt in
  let sa := sin azimuth in
  let ca := cos azimuth in
  let Omega := OmegaRPM * PI / 30 in
  let '(x_az, y_az, z_az, cone, sint) := defineCurvature n r precurve presweep precone in
  let sc := fun i => sin (cone i) in
  let cc := fun i => cos (cone i) in
  let heightFromHub := fun i => (y_az i * sa + z_az i * ca) * ct - x_az i * st in
  let V := fun i => Uinf * rpow (1 + heightFromHub i / hubHt) shearExp in
  let Vwind_x := fun i => V i * ((cy * st * ca + sy * sa) * sc i + cy * ct * cc i) in
  let Vwind_y := fun i => V i * (cy * st * sa - sy * ca) in
  let Vrot_x := fun i => - Omega * y_az i * sc i in
  let Vrot_y := fun i => Omega * z_az i in
  (fun i => Vwind_x i + Vrot_x i, fun i => Vwind_y i + Vrot_y i).

(** bem.f90:312-331: array of length n extended by a first and a last entry. *)
Definition pad (n : nat) (first : R) (f : arr) (last : R) : arr :=
  fun i => if Nat.eqb i 0 then first else if Nat.eqb i (n + 1) then last else f (i - 1)%nat.

(** bem.f90:345-357: [acc = acc + 0.5*(f(i)+f(i+1))*(s(i+1)-s(i))], i = 1..m. *)
Fixpoint trapz (m : nat) (f s : arr) : R :=
  match m with
  | O => 0
  | S j => trapz j f s + 1 / 2 * (f j + f (S j)) * (s (S j) - s j)
  end.

(** bem.f90:290-360, subroutine thrustTorque; outputs (T, Y, Z, Q, M). *)
Definition thrustTorque (n : nat) (Np Tp r precurve presweep : arr)
    (precone Rhub Rtip precurveTip presweepTip : R) : R * R * R * R * R :=
  let rfull := pad n Rhub r Rtip in
  let curvefull := pad n 0 precurve precurveTip in
  let sweepfull := pad n 0 presweep presweepTip in
  let Npfull := pad n 0 Np 0 in
  let Tpfull := pad n 0 Tp 0 in
  let '(x_az, y_az, z_az, cone, s) := defineCurvature (n + 2) rfull curvefull sweepfull precone in
  let thrust := fun i => Npfull i * cos (cone i) in
  let side_force := Tpfull in
  let vert_force := fun i => Npfull i * sin (cone i) in
  let torque := fun i => Tpfull i * z_az i in
  let flap_moment := fun i => Npfull i * z_az i in
  (trapz (n + 1) thrust s, trapz (n + 1) side_force s, trapz (n + 1) vert_force s,
   trapz (n + 1) torque s, trapz (n + 1) flap_moment s).
