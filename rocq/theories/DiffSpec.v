(** Vocabulary of the derivative properties. *)
From Coquelicot Require Import Coquelicot.
From Coq Require Import Reals Bool Arith Lra.
From Verif Require Import Prelim Num Bem IndSpec.
Open Scope R_scope.

(** Each output of relativeWind. *)
Definition out_alpha {A} (x : A * A * A) : A := fst (fst x).
Definition out_W {A} (x : A * A * A) : A := snd (fst x).
Definition out_Re {A} (x : A * A * A) : A := snd x.

(** relativeWind is inside one of its three formulas, which has a derivative. *)
Definition wind_branch (phi a ap Vx Vy : R) : Prop :=
  (10 < Rabs a /\ cos phi <> 0)
  \/ (Rabs a < 10 /\ 10 < Rabs ap /\ sin phi <> 0)
  \/ (Rabs a < 10 /\ Rabs ap < 10 /\ (Vx * (1 - a) <> 0 \/ Vy * (1 + ap) <> 0)).

(** The loss formulas that are switched on have their exponent positive (for
    positive radii: station inside the blade and a positive inflow angle). *)
Definition losses_apply (o : bemopts) (B : nat) (r Rhub Rtip phi : R) : Prop :=
  (tipLoss o = true -> 0 < INR B * (Rtip - r) / (2 * r * sin phi)) /\
  (hubLoss o = true -> Rhub <> 0 /\ 0 < INR B * (r - Rhub) / (2 * Rhub * sin phi)).

(** Away from the branch boundaries of the axial induction: for phi > 0 the
    momentum side (k <= 2/3, the switch itself only if the guard band is not
    there), the Buhl side and the guard band; for phi < 0 both sides of k = 1. *)
Definition axial_branch (phi k F : R) : Prop :=
  (0 < phi /\ k < 2 / 3 /\ k <> -1)
  \/ (0 < phi /\ k = 2 / 3 /\ 1 / 1000000 < Rabs (band F k))
  \/ (0 < phi /\ 2 / 3 < k /\ Rabs (band F k) <> 1 / 1000000)
  \/ (phi < 0 /\ k <> 1).

(** Inner product of the first n entries. *)
Fixpoint inner (n : nat) (f g : nat -> R) : R :=
  match n with O => 0 | S m => inner m f g + f m * g m end.

(** Outputs of defineCurvature by name. *)
Definition out_x {A} (p : A * A * A * A * A) : A := fst (fst (fst (fst p))).
Definition out_y {A} (p : A * A * A * A * A) : A := snd (fst (fst (fst p))).
Definition out_z {A} (p : A * A * A * A * A) : A := snd (fst (fst p)).
Definition out_cone {A} (p : A * A * A * A * A) : A := snd (fst p).
Definition out_s {A} (p : A * A * A * A * A) : A := snd p.

(** No segment between consecutive stations points along the cut of atan2: it
    advances radially or has some axial extent. *)
Definition proper_segments (n : nat) (x z : nat -> R) : Prop :=
  forall i, (S i < n)%nat -> 0 < z (S i) - z i \/ x (S i) <> x i.

(** Array values at time s of a family of curves. *)
Definition at_time (f : nat -> R -> R) (s : R) : nat -> R := fun i => f i s.
Definition curves_derive (n : nat) (f : nat -> R -> R) (t : R) (d : nat -> R) : Prop :=
  forall i, (i < n)%nat -> is_derive (f i) t (d i).

(** Height above the hub of a point (x, y, z) of the azimuth frame (radians). *)
Definition height_az (azimuth tilt x y z : R) : R :=
  (y * sin azimuth + z * cos azimuth) * cos tilt - x * sin tilt.

(** Seeded combination of the five outputs of thrustTorque. *)
Definition seeded (tb yb zb qb mb : R) (out : R * R * R * R * R) : R :=
  let '(T, Y, Z, Q, M) := out in tb * T + yb * Y + zb * Z + qb * Q + mb * M.
