(** Vocabulary for which inputs a station load depends on (C110). *)
From Coq Require Import Reals List.
From Verif Require Import Prelim Num Blade.
Import ListNotations.
Open Scope R_scope.

(** Two sets of constructor arguments with the same scalars (the number of sectors is free). *)
Definition same_scalars (g1 g2 : args) : Prop :=
  g_Rhub g1 = g_Rhub g2 /\ g_Rtip g1 = g_Rtip g2 /\ g_B g1 = g_B g2 /\ g_rho g1 = g_rho g2 /\ g_mu g1 = g_mu g2 /\
  g_precone g1 = g_precone g2 /\ g_tilt g1 = g_tilt g2 /\ g_yaw g1 = g_yaw g2 /\ g_shearExp g1 = g_shearExp g2 /\
  g_hubHt g1 = g_hubHt g2 /\ g_opts g1 = g_opts g2 /\ g_iterRe g1 = g_iterRe g2.

(** Station i of the first and station j of the second have the same chord, twist and airfoil. *)
Definition same_section (g1 : args) (i : nat) (g2 : args) (j : nat) : Prop :=
  nth_error (g_chord g1) i = nth_error (g_chord g2) j /\ nth_error (g_theta g1) i = nth_error (g_theta g2) j /\
  nth_error (g_af g1) i = nth_error (g_af g2) j.

(** Entry i of an optional array that defaults to zeros. *)
Definition entry (o : option (list R)) (i : nat) : R := match o with Some l => nth i l 0 | None => 0 end.

(** Station i of the first and station j of the second are at the same place. *)
Definition same_place (g1 : args) (i : nat) (g2 : args) (j : nat) : Prop :=
  nth_error (g_r g1) i = nth_error (g_r g2) j /\ entry (g_precurve g1) i = entry (g_precurve g2) j /\
  entry (g_presweep g1) i = entry (g_presweep g2) j.

(** No station is moved by the constructor: neither end is at the hub or the tip. *)
Definition ends_free (g : args) : Prop :=
  g_Rhub g <> hd 0 (g_r g) /\ g_Rtip g <> last (g_r g) 0 /\
  match g_precurve g with Some l => g_precurveTip g <> last l 0 | None => True end /\
  match g_presweep g with Some l => g_presweepTip g <> last l 0 | None => True end.
