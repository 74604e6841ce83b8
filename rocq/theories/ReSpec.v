(** Vocabulary for the Reynolds number of the airfoil lookups (C122, C123). *)
From Coq Require Import Reals.
From Verif Require Import Prelim Num Bem Blade.
Open Scope R_scope.

(** An airfoil whose coefficients do not depend on the Reynolds number. *)
Definition ignores_Re (af : airfoil fl) : Prop := forall alpha Re Re', af alpha Re = af alpha Re'.

(** The same constructor call with another iterRe. *)
Definition with_iter (n : nat) (g : args) : args :=
  mkArgs (g_r g) (g_chord g) (g_theta g) (g_af g) (g_Rhub g) (g_Rtip g) (g_B g) (g_rho g) (g_mu g)
    (g_precone g) (g_tilt g) (g_yaw g) (g_shearExp g) (g_hubHt g) (g_nSector g)
    (g_precurve g) (g_precurveTip g) (g_presweep g) (g_presweepTip g) (g_opts g) n.

(** The section with another airfoil. *)
Definition with_af (af : airfoil fl) (sc : sect fl) : sect fl := mkSect (s_r sc) (s_chord sc) (s_theta sc) af (s_Vx sc) (s_Vy sc).

(** Reynolds number of a section of the given chord in a wind of the given components. *)
Definition reynolds (rho mu chord Vx Vy : R) : R := rho * sqrt (Vx * Vx + Vy * Vy) * chord / mu.
