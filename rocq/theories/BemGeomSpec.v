(** Specification vocabulary for blade geometry, wind components and load
    integration: points in space, polar angles, the documented chain of frame
    conversions, arrays extended by hub and tip, piecewise-linear interpolants. *)
From Coquelicot Require Import Coquelicot.
From Coq Require Import Reals List Lia Lra.
From Verif Require Import Prelim CSystem CSystemSpec.
Import ListNotations.
Open Scope R_scope.

(** Angle of the plane vector (x, y) = rho (cos th, sin th), in (-PI, PI]. *)
Definition polar_angle (y x th : R) : Prop :=
  - PI < th <= PI /\
  x = sqrt (x ^ 2 + y ^ 2) * cos th /\ y = sqrt (x ^ 2 + y ^ 2) * sin th.

(** Euclidean distance of two points of space. *)
Definition dist3 (p q : vec3) : R :=
  sqrt ((c1 p - c1 q) ^ 2 + (c2 p - c2 q) ^ 2 + (c3 p - c3 q) ^ 2).

(** Length of the polygonal line through the points p 0, ..., p m. *)
Fixpoint polyline (p : nat -> vec3) (m : nat) : R :=
  match m with O => 0 | S j => polyline p j + dist3 (p (S j)) (p j) end.

(** docs: a blade station in blade-root coordinates, and in the azimuth frame. *)
Definition station (precurve presweep r : R) : dvec := fresh precurve presweep r.
Definition station_az (precone : R) (precurve presweep r : R) : dvec :=
  apply [BladeToAzimuth precone] (station precurve presweep r).

(** Height above the hub: azimuth -> hub -> yaw, vertical component. *)
Definition height (azimuth tilt : R) (p : dvec) : R :=
  vz (apply [AzimuthToHub azimuth; HubToYaw tilt] p).

(** Power-law shear: U (1 + h/hubHt)^shearExp. *)
Definition sheared (U h hubHt shear : R) : R := U * Rpower (1 + h / hubHt) shear.

(** Wind in the blade frame: wind -> yaw -> hub -> azimuth -> blade. *)
Definition wind_in_blade (V yaw tilt azimuth cone : R) : vec3 :=
  coords (apply [WindToYaw yaw; YawToHub tilt; HubToAzimuth azimuth; AzimuthToBlade cone] (fresh V 0 0)).

(** Minus Omega x position, azimuth -> blade. *)
Definition rotation_in_blade (Omega cone : R) (p : dvec) : vec3 :=
  coords (apply [AzimuthToBlade cone] (dv_neg (cross (fresh Omega 0 0) p))).

(** [g] is the array [f] of length n with a hub value before it and a tip value after it. *)
Definition extends (n : nat) (hub : R) (f : nat -> R) (tip : R) (g : nat -> R) : Prop :=
  g O = hub /\ (forall i, (i < n)%nat -> g (S i) = f i) /\ g (S n) = tip.

(** [g] is the piecewise-linear interpolant of the values f 0 .. f m at s 0 .. s m. *)
Definition interpolates (m : nat) (s f : nat -> R) (g : R -> R) : Prop :=
  forall i, (i < m)%nat -> forall t, 0 <= t <= 1 ->
    g ((1 - t) * s i + t * s (S i)) = (1 - t) * f i + t * f (S i).

Definition increasing_upto (m : nat) (s : nat -> R) : Prop :=
  forall i, (i < m)%nat -> s i < s (S i).
