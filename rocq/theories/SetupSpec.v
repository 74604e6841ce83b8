(** Inputs and outputs of the components by name (C82). *)
From Coq Require Import Reals Bool Arith Ascii String List.
From Verif Require Import Prelim Num Bem Interp BemDiff Blade BladeDiff Component.
Import ListNotations.
Open Scope string_scope.
Open Scope R_scope.

Definition geom_input (x : string) (i : geom_in) : list R :=
  if String.eqb x "Rtip" then [gi_Rtip i] else if String.eqb x "precurve_in" then gi_precurve i
  else if String.eqb x "presweep_in" then gi_presweep i else if String.eqb x "precone" then [gi_precone i] else [].
Definition geom_output (y : string) (o : geom_out) : list R :=
  if String.eqb y "R" then [go_R o] else if String.eqb y "diameter" then [go_diameter o]
  else if String.eqb y "precurveTip" then [go_precurveTip o] else if String.eqb y "presweepTip" then [go_presweepTip o] else [].

(** The airfoil tables are not numbers of the model; they are compared separately. *)
Definition load_input (x : string) (i : load_in) : list R :=
  if String.eqb x "V_load" then [li_V i] else if String.eqb x "Omega_load" then [li_Omega i] else if String.eqb x "pitch_load" then [li_pitch i]
  else if String.eqb x "azimuth_load" then [li_azimuth i] else if String.eqb x "r" then li_r i else if String.eqb x "chord" then li_chord i
  else if String.eqb x "theta" then li_theta i else if String.eqb x "Rhub" then [li_Rhub i] else if String.eqb x "Rtip" then [li_Rtip i]
  else if String.eqb x "hub_height" then [li_hub_height i] else if String.eqb x "precone" then [li_precone i] else if String.eqb x "tilt" then [li_tilt i]
  else if String.eqb x "yaw" then [li_yaw i] else if String.eqb x "precurve" then li_precurve i else if String.eqb x "precurveTip" then [li_precurveTip i]
  else if String.eqb x "rho" then [li_rho i] else if String.eqb x "mu" then [li_mu i] else if String.eqb x "shearExp" then [li_shearExp i] else [].
(** Output y at station k. *)
Definition load_output (y : string) (o : load_out) (k : nat) : R :=
  if String.eqb y "loads_r" then nth k (lo_r o) 0 else if String.eqb y "loads_Px" then lo_Px o k else if String.eqb y "loads_Py" then lo_Py o k
  else if String.eqb y "loads_Pz" then lo_Pz o k else 0.
Definition set_load_rho (i : load_in) (rho : R) : load_in :=
  mkLoadIn (li_r i) (li_chord i) (li_theta i) (li_Rhub i) (li_Rtip i) (li_hub_height i) (li_precone i) (li_tilt i) (li_yaw i)
    (li_precurve i) (li_precurveTip i) (li_B i) rho (li_mu i) (li_shearExp i) (li_nSector i) (li_opts i)
    (li_V i) (li_Omega i) (li_pitch i) (li_azimuth i) (li_af i) (li_afd i).
