(** Vocabulary for rotors whose blades occupy the same points of space (C89, C90). *)
From Coq Require Import Reals List.
From Verif Require Import Prelim CSystem CSystemSpec Num Bem BemGeomSpec Blade BladeSpec SimilaritySpec.
Import ListNotations.
Open Scope R_scope.

(** Position in the azimuth frame of the station i, of the blade root and of the blade tip: the documented blade coordinates
    (precurve, presweep, r), coned by the conversions of csystem.py. *)
Definition station_place (b : blade) (i : nat) : vec3 :=
  coords (station_az (degrees (b_precone b)) (aget (b_precurve b) i) (aget (b_presweep b) i) (aget (b_r b) i)).
Definition root_place (b : blade) : vec3 := coords (station_az (degrees (b_precone b)) 0 0 (b_Rhub b)).
Definition tip_place (b : blade) : vec3 := coords (station_az (degrees (b_precone b)) (b_precurveTip b) (b_presweepTip b) (b_Rtip b)).

(** The stations of the two blades are at the same points, whatever parts precone and precurve have in that. *)
Definition same_stations (b b' : blade) : Prop :=
  (2 <= length (b_r b))%nat /\ length (b_r b') = length (b_r b) /\ shapes_ok b = true /\ shapes_ok b' = true /\
  forall i, (i < length (b_r b))%nat -> station_place b' i = station_place b i.

(** Same site and same rotor attitude. *)
Definition same_site (b b' : blade) : Prop :=
  b_yaw b' = b_yaw b /\ b_tilt b' = b_tilt b /\ b_hubHt b' = b_hubHt b /\ b_shearExp b' = b_shearExp b /\ b_rho b' = b_rho b /\ b_mu b' = b_mu b.

(** Same sections, in the same mode, same blade number and model options. *)
Definition same_sections (b b' : blade) : Prop :=
  b_chord b' = b_chord b /\ b_theta b' = b_theta b /\ b_af b' = b_af b /\ b_inverse b' = b_inverse b /\ b_cl b' = b_cl b /\ b_cd b' = b_cd b /\ b_alpha b' = b_alpha b /\
  b_B b' = b_B b /\ b_opts b' = b_opts b /\ b_iterRe b' = b_iterRe b.

(** The claim of docs/tutorial.rst (section Precurve): nothing is lost by writing the cone of a blade as precurve. Of two rotors that
    differ only in how their cone is expressed, one has the loads of the other. *)
Definition coning_is_precurve (npi : R) (bq : rootfinder fl) : Prop := forall g g' b b' U Om p az,
  construct g = Ok b -> construct g' = Ok b' -> g_precone g' = 0 -> same_stations b b' -> same_site b b' -> same_sections b b' ->
  c3 (root_place b') = c3 (root_place b) -> tip_place b' = tip_place b ->
  section_loads npi bq b' U Om p az = section_loads npi bq b U Om p az.
(** The integration part of the same claim: some hub radius makes up for the precone. *)
Definition coning_is_precurve_totals : Prop := forall g b, construct g = Ok b ->
  exists Rhub' : R, forall b', b_precone b' = 0 -> b_Rhub b' = Rhub' -> same_stations b b' -> tip_place b' = tip_place b ->
  forall Np Tp, blade_force b' Np Tp = blade_force b Np Tp.
