(** Blades that occupy the same points of space (C89, C90). *)
From Coq Require Import Reals Bool Arith List Lra Lia.
From Verif Require Import Prelim CSystem CSystemSpec Num Bem BemGeomSpec Blade IndSpec BladeSpec FlProofs StationProofs StationExist
  SimilaritySpec ParkedSpec PlacementSpec PlacementProofs PlacementWitness PropsStation.
Import ListNotations.
Open Scope R_scope.

(** ** C89: what depends only on where the blade is *)
(** The wind seen by a station depends only on the places of the stations, not on how precone, r and precurve produce them. *)
Theorem C89_wind : forall b b' U Om az i, same_site b b' -> same_stations b b' -> (i < length (b_r b))%nat ->
  fst (wind b' U Om az) i = fst (wind b U Om az) i /\ snd (wind b' U Om az) i = snd (wind b U Om az) i.
Proof. exact same_wind. Qed.
Print Assumptions C89_wind.

(** So do the loads of a parked rotor. *)
Theorem C89_parked : forall npi bq bq' b b' U p az, same_site b b' -> same_sections b b' -> same_stations b b' ->
  section_loads npi bq' b' U 0 p az = section_loads npi bq b U 0 p az.
Proof. exact parked_same. Qed.
Print Assumptions C89_parked.

(** Force and moment on the hub, for given section loads, depend in addition only on the places of the root and of the tip. *)
Theorem C89_totals : forall b b', same_stations b b' -> root_place b' = root_place b -> tip_place b' = tip_place b ->
  forall Np Tp, blade_force b' Np Tp = blade_force b Np Tp /\ blade_moment b' Np Tp = blade_moment b Np Tp.
Proof. exact same_totals. Qed.
Print Assumptions C89_totals.

(** The rotor radius used by the coefficients is the third azimuth coordinate of the tip. *)
Theorem C89_radius : forall g b, construct g = Ok b -> b_rotorR b = c3 (tip_place b).
Proof. exact radius_place. Qed.
Print Assumptions C89_radius.

(** A blade coned by 60 degrees and the same blade written with precurve. *)
Example C89_example : construct coned_args = Ok coned /\ construct curved_args = Ok (curved (1 / 4)) /\ b_precone coned = radians 60 /\ b_precone (curved (1 / 4)) = 0 /\
  same_stations coned (curved (1 / 4)) /\ same_site coned (curved (1 / 4)) /\ same_sections coned (curved (1 / 4)) /\
  tip_place (curved (1 / 4)) = tip_place coned /\ b_rotorR (curved (1 / 4)) = 3 / 2 /\ b_rotorR coned = 3 / 2.
Proof.
  split; [exact coned_construct|]. split; [exact curved_construct|]. split; [reflexivity|]. split; [reflexivity|]. destruct (same_blade (1 / 4)) as (A1 & A2 & A3 & A4).
  do 4 (split; [assumption|]). split; [reflexivity|]. cbn [coned b_rotorR]. rewrite cos60. field.
Qed.
(** The premises of [C89_totals] with different cone angles: root on the axis. *)
Example C89_totals_example : let move b := mkBlade (b_r b) (b_chord b) (b_theta b) (b_af b) 0 (b_Rtip b) (b_B b) (b_rho b) (b_mu b) (b_precone b) (b_tilt b) (b_yaw b)
    (b_shearExp b) (b_hubHt b) (b_opts b) (b_iterRe b) (b_precurve b) (b_precurveTip b) (b_presweep b) (b_presweepTip b) (b_rotorR b) (b_nSector b) (b_inverse b) (b_cl b) (b_cd b) (b_alpha b) (b_pitch b) in
  same_stations (move coned) (move (curved 0)) /\ root_place (move (curved 0)) = root_place (move coned) /\ tip_place (move (curved 0)) = tip_place (move coned).
Proof.
  destruct (same_blade 0) as (A1 & _ & _ & A4). cbv zeta. split; [exact A1|]. split; [|exact A4].
  unfold root_place. rewrite !BemGeomProofs.station_az_coords. cbn [b_Rhub]. repeat apply (f_equal2 pair); ring.
Qed.

(** ** C90: precone cannot be traded for precurve *)
(** The claim fails for the sections of a rotor that turns: solidity and loss factors use the coordinate r itself. For every root finder
    the two rotors of the example have axial induction factors 1/5, 1/9 and 1/3, 1/5. *)
Theorem C90_coning_sections_refuted : forall npi bq, 3 < npi < PI -> root_inside bq -> accepts_sign_change bq ->
  ~ coning_is_precurve npi bq /\
  exists g g' b b' l0 l1 l0' l1', construct g = Ok b /\ construct g' = Ok b' /\ g_precone g = 60 /\ g_precone g' = 0 /\ same_stations b b' /\ same_site b b' /\ same_sections b b' /\ tip_place b' = tip_place b /\
    section_loads npi bq b 10 (300 / PI) 0 0 = Ok [l0; l1] /\ section_loads npi bq b' 10 (300 / PI) 0 0 = Ok [l0'; l1'] /\
    rep (o_a l0) (1 / 5) /\ rep (o_a l0') (1 / 3) /\ rep (o_a l1) (1 / 9) /\ rep (o_a l1') (1 / 5).
Proof.
  intros npi bq Hn H1 H2. split; [exact (coning_claim_refuted npi bq Hn H1 H2)|]. destruct (coning_refuted npi bq Hn H1 H2) as (l0 & l1 & l0' & l1' & H).
  destruct (same_blade (1 / 4)) as (A1 & A2 & A3 & A4).
  exists coned_args, curved_args, coned, (curved (1 / 4)), l0, l1, l0', l1'. split; [exact coned_construct|]. split; [exact curved_construct|]. do 2 (split; [reflexivity|]).
  do 4 (split; [assumption|]). exact H.
Qed.
Print Assumptions C90_coning_sections_refuted.

(** It fails for the integration as well, whatever hub radius is chosen: the root has no precurve parameter and stays on the axis
    perpendicular to the shaft. *)
Theorem C90_coning_totals_refuted : ~ coning_is_precurve_totals.
Proof. exact totals_claim_refuted. Qed.
Print Assumptions C90_coning_totals_refuted.

Example C90_example : exists npi bq, 3 < npi < PI /\ root_inside bq /\ accepts_sign_change bq.
Proof. exists ((3 + PI) / 2), midpoint. split; [pose proof PI2_3_2; lra|]. split; apply midpoint_contracts. Qed.
