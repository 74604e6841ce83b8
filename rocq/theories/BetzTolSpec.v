(** Vocabulary for solutions whose velocity triangle closes only approximately (C109). *)
From Coq Require Import Reals List.
From Verif Require Import Prelim Num Blade FlProofs.
Open Scope R_scope.

(** The inflow angle phi and the two velocities Vx (1 - a), Vy (1 + ap) agree up to the relative error d: exactly, their
    ratio is tan phi. *)
Definition closes_within (d Vx Vy phi a ap : R) : Prop :=
  Rabs (Vx * (1 - a) * cos phi - Vy * (1 + ap) * sin phi) <= d * Rabs (Vy * (1 + ap) * sin phi).

(** A reported load l of a station with twist th (degrees) at pitch p (degrees) in the wind Vx, Vy: the angles and inductions
    are numbers, the inflow comes from ahead, and the triangle closes up to d. *)
Definition settled_within (d th p Vx Vy : R) (l : sload fl) : Prop :=
  exists al a ap, rep (o_alpha l) al /\ rep (o_a l) a /\ rep (o_ap l) ap /\ 0 < radians (al + th + p) < PI / 2 /\
    closes_within d Vx Vy (radians (al + th + p)) a ap.
