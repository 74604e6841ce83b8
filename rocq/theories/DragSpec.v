(** Specification vocabulary for rotors without lift (C119, C120). *)
From Coq Require Import Reals Bool Arith List.
From Verif Require Import Prelim Num Bem Blade FlProofs InterpSpec.
Import ListNotations.
Open Scope R_scope.

(** An airfoil without lift: lift coefficient zero, a drag coefficient that is finite and not negative. *)
Definition no_lift (af : airfoil fl) : Prop := forall al Re,
  rep (fst (af al Re)) 0 /\ exists cd, rep (snd (af al Re)) cd /\ 0 <= cd.

(** Arguments of a blade with its stations in order between hub and tip. Cone, tilt, yaw, shear and the shape of
    the blade are free. *)
Definition in_order (g : args) : Prop :=
  increasing (g_r g) /\ 0 < g_Rhub g <= nth 0 (g_r g) 0 /\ nth (length (g_r g) - 1) (g_r g) 0 <= g_Rtip g /\ (1 <= g_B g)%nat.

(** At least one of Prandtl's corrections is on, as it is by default. *)
Definition losses (o : bemopts) : Prop := tipLoss o = true \/ hubLoss o = true.
