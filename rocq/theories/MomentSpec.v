(** Specification vocabulary for the extrapolated moment coefficient (C92), independent of how the code computes. *)
From Coq Require Import Reals List ZArith.
From Verif Require Import Prelim Polar InterpSpec PolarSpec.
Import ListNotations.
Open Scope R_scope.

(** The data have a moment that is not zero. *)
Definition some_moment (p : polar) : Prop := exists c, In c (p_cm p) /\ c <> 0.

(** Lift rises through zero between row i and row i + 1, at a moderate angle. *)
Definition crosses_zero_lift (p : polar) (i : nat) : Prop :=
  (S i < length (p_alpha p))%nat /\ -20 < nth i (p_alpha p) 0 < 20 /\ nth i (p_cl p) 0 <= 0 <= nth (S i) (p_cl p) 0.

(** m is the moment where the line through rows i and i + 1 has no lift. *)
Definition moment_without_lift (p : polar) (i : nat) (m : R) : Prop :=
  (m - nth i (p_cm p) 0) * (nth (S i) (p_cl p) 0 - nth i (p_cl p) 0) =
  (nth (S i) (p_cm p) 0 - nth i (p_cm p) 0) * (0 - nth i (p_cl p) 0).

(** m is the moment at zero lift: at the first crossing, or by the first two rows if there is none. *)
Definition zero_lift_moment (p : polar) (m : R) : Prop :=
  (exists i, crosses_zero_lift p i /\ (forall j, (j < i)%nat -> ~ crosses_zero_lift p j) /\ moment_without_lift p i m) \/
  ((forall i, ~ crosses_zero_lift p i) /\ moment_without_lift p 0 m).

(** The force normal to the chord. *)
Definition normal_force (cl cd a : R) : R := cl * cos a + cd * sin a.

(** The moment v at an angle a > 0 (radians) with lift cl and drag cd, as the normal force on an arm x from the moment m0
    at zero lift. The arm, measured from the quarter chord, goes with the cotangent of the angle; at the last row of the data
    it is the arm xh that gives the moment of that row. *)
Definition flat_plate_moment (p : polar) (m0 a cl cd v : R) : Prop :=
  let ah := radians (final (p_alpha p)) in
  exists xh x,
    final (p_cm p) = m0 - xh * normal_force (final (p_cl p)) (final (p_cd p)) ah /\
    (x - 1 / 4) * sin a * cos ah = (xh - 1 / 4) * sin ah * cos a /\
    v = m0 - x * normal_force cl cd a.

(** The moment v at a multiple of ten t (degrees) outside the data. *)
Definition table_moment (p : polar) (m0 t cl cd v : R) : Prop :=
  (t = 180 \/ t = -180 -> v = 0) /\
  (t = 170 -> v = - 1 / 2) /\
  (t = -170 -> v = 2 / 5) /\
  (t = 0 -> v = m0) /\
  (0 < t < 170 -> flat_plate_moment p m0 (radians t) cl cd v) /\
  (-170 < t < 0 -> flat_plate_moment p m0 (radians (- t)) (- cl) cd (- v)).

(** The moment v at a multiple of ten t that is not inside the data [p], whose extrapolation is [b]: at an end of the data 0. *)
Definition node_moment (p b : polar) (m0 t v : R) : Prop :=
  (t = first (p_alpha p) \/ t = final (p_alpha p) -> v = 0) /\
  (t < first (p_alpha p) \/ final (p_alpha p) < t ->
     exists cl cd, value CL b t cl /\ value CD b t cd /\ table_moment p m0 t cl cd v).

(** y is the value at x on the line through (x0, y0) and (x1, y1). *)
Definition on_line (x0 y0 x1 y1 x y : R) : Prop := (y - y0) * (x1 - x0) = (y1 - y0) * (x - x0).
