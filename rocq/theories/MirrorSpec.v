(** Vocabulary of the mirrored rotor (C126). *)
From Coq Require Import Reals List.
From Verif Require Import Bem Blade.
Import ListNotations.
Open Scope R_scope.

(** The rotor seen in a mirror whose plane is vertical and contains the tower and the wind: yaw and sweep to the other side. *)
Definition mirrored (g : args) : args :=
  mkArgs (g_r g) (g_chord g) (g_theta g) (g_af g) (g_Rhub g) (g_Rtip g) (g_B g) (g_rho g) (g_mu g)
    (g_precone g) (g_tilt g) (- g_yaw g) (g_shearExp g) (g_hubHt g) (g_nSector g)
    (g_precurve g) (g_precurveTip g) (option_map (map Ropp) (g_presweep g)) (- g_presweepTip g) (g_opts g) (g_iterRe g).

(** Outputs that agree except for the sign of the moment about the vertical axis; nothing is said about the forces in the rotor plane. *)
Definition mirror_out (o o' : outputs) : Prop :=
  let t := y_tot o in let t' := y_tot o' in
  t_T t' = t_T t /\ t_Q t' = t_Q t /\ t_Mb t' = t_Mb t /\ t_My t' = t_My t /\ t_Mz t' = - t_Mz t /\ y_P o' = y_P o.
Definition mirror_coefficients (o o' : outputs) : Prop :=
  y_CT o' = y_CT o /\ y_CQ o' = y_CQ o /\ y_CMb o' = y_CMb o /\ y_CMy o' = y_CMy o /\ y_CMz o' = - y_CMz o /\ y_CP o' = y_CP o.
(** Totals that are infinite or NaN ([None]) on one side are so on the other. *)
Definition mirror_opt (coefficients : Prop) (o o' : option outputs) : Prop :=
  match o, o' with Some a, Some b => mirror_out a b /\ (coefficients -> mirror_coefficients a b) | None, None => True | _, _ => False end.
