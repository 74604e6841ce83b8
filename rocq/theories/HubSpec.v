(** Vocabulary of C113. *)
From Coq Require Import Reals.
From Verif Require Import Prelim Num Bem Blade.
Open Scope R_scope.

(** The same constructor call with another hub height. *)
Definition with_hub (h : R) (g : args) : args :=
  mkArgs (g_r g) (g_chord g) (g_theta g) (g_af g) (g_Rhub g) (g_Rtip g) (g_B g) (g_rho g) (g_mu g)
    (g_precone g) (g_tilt g) (g_yaw g) (g_shearExp g) h (g_nSector g)
    (g_precurve g) (g_precurveTip g) (g_presweep g) (g_presweepTip g) (g_opts g) (g_iterRe g).
