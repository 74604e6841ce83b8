(** Vocabulary of the bound on the relative wind (C133). *)
From Coq Require Import Reals List.
From Verif Require Import Prelim CSystem CSystemSpec Num Bem BemGeomSpec Blade IndSpec BladeSpec FlProofs.
Import ListNotations.
Open Scope R_scope.

(** Station i of a blade in the azimuth frame, its height above the hub at an azimuth in degrees, the wind at that height, and its distance from the axis. *)
Definition place (b : blade) (i : nat) : dvec := station_az (degrees (b_precone b)) (aget (b_precurve b) i) (aget (b_presweep b) i) (aget (b_r b) i).
Definition above_hub (b : blade) (az : R) (i : nat) : R := height az (degrees (b_tilt b)) (place b i).
Definition wind_there (b : blade) (U az : R) (i : nat) : R := sheared U (above_hub b az i) (b_hubHt b) (b_shearExp b).
Definition off_axis (b : blade) (i : nat) : R := sqrt (vy (place b i) ^ 2 + vz (place b i) ^ 2).

(** The station is above the ground, or there is no shear. *)
Definition shear_defined (b : blade) (az : R) (i : nat) : Prop := b_hubHt b <> 0 /\ 0 < 1 + above_hub b az i / b_hubHt b \/ b_shearExp b = 0.

(** Length of a vector of the plane. *)
Definition len2 (x y : R) : R := sqrt (x ^ 2 + y ^ 2).

(** The resultant of lift and drag coefficient never exceeds K. *)
Definition coefficient_bound (K : R) (clf cdf : R -> R -> R) : Prop := forall al Re, len2 (clf al Re) (cdf al Re) <= K.

(** Speed and load of a section: at most the speed V, and at most the dynamic pressure of V times chord c times K. *)
Definition load_bound (rho c K V : R) (l : sload fl) : Prop := exists W N T, rep (o_W l) W /\ rep (o_Np l) N /\ rep (o_Tp l) T /\ 0 <= W <= Rabs V /\ len2 N T <= Rabs (rho * c) * V ^ 2 / 2 * K.
