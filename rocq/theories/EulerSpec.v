(** Vocabulary of C114: a design blown up and blown at faster, and the rates of its variables. *)
From Coq Require Import Reals.
From Verif Require Import Prelim Num Bem BemDiff Blade BladeDiff.
Open Scope R_scope.

(** All lengths multiplied by L, the wind speed by V, the rotor speed by V / L; angles and shear exponent kept. *)
Definition scaled_design (L V : R) (D : design) : design :=
  let A (f : arr) : arr := fun i => L * f i in
  mkDesign (A (x_r D)) (A (x_chord D)) (x_theta D) (A (x_precurve D)) (A (x_presweep D)) (x_precone D) (x_tilt D) (L * x_hubHt D)
    (L * x_Rhub D) (L * x_Rtip D) (L * x_precurveTip D) (L * x_presweepTip D) (x_yaw D) (x_shear D) (x_azimuth D) (V * x_Uinf D)
    (V / L * x_Omega D) (x_pitch D).

(** Rates of the variables when lengths grow at the relative rate a and speeds at the relative rate b. *)
Definition scaling_rates (a b : R) (D : design) : design :=
  let A (f : arr) : arr := fun i => a * f i in
  mkDesign (A (x_r D)) (A (x_chord D)) (fun _ => 0) (A (x_precurve D)) (A (x_presweep D)) 0 0 (a * x_hubHt D)
    (a * x_Rhub D) (a * x_Rtip D) (a * x_precurveTip D) (a * x_presweepTip D) 0 0 0 (b * x_Uinf D) ((b - a) * x_Omega D) 0.
