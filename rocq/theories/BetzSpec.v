(** Specification vocabulary for the Betz limit (C101, C102). *)
From Coq Require Import Reals Bool Arith List.
From Verif Require Import Prelim Num Bem Blade FlProofs InterpSpec.
Import ListNotations.
Open Scope R_scope.

(** An airfoil that answers with finite coefficients and non-negative drag, or with a NaN lift. *)
Definition drags (af : airfoil fl) : Prop := forall al Re,
  (exists cl cd, rep (fst (af al Re)) cl /\ rep (snd (af al Re)) cd /\ 0 <= cd) \/ fst (af al Re) = NaN.

(** Arguments of a flat rotor disc across the wind: straight blades, no cone, tilt, yaw or shear; stations
    from the hub to the tip. *)
Definition flat_disc (g : args) : Prop :=
  g_precone g = 0 /\ g_tilt g = 0 /\ g_yaw g = 0 /\ g_shearExp g = 0 /\ g_precurve g = None /\ g_presweep g = None /\
  increasing (g_r g) /\ 0 < g_Rhub g <= nth 0 (g_r g) 0 /\ nth (length (g_r g) - 1) (g_r g) 0 <= g_Rtip g /\ (1 <= g_B g)%nat.

(** Power of a wind of speed U and density rho through the area A. *)
Definition wind_power (rho U A : R) : R := rho * A * U ^ 3 / 2.

(** The largest part of the power in the wind that a disc can take out (Betz 1920). *)
Definition betz : R := 16 / 27.

(** The contract of a root finder on a continuous residual: it returns if the signs at the ends differ. *)
Definition accepts_continuous (bq : rootfinder fl) : Prop := forall f (g : R -> R) a b, a <= b ->
  (forall v, a <= v <= b -> rep (f (Fin v)) (g v)) -> (forall v, a <= v <= b -> continuity_pt g v) -> g a * g b < 0 ->
  exists x, bq f (Fin a) (Fin b) = Ok x.
