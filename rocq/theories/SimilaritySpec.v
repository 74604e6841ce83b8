(** Vocabulary of the similarity and symmetry properties (C83-C86). *)
From Coq Require Import Reals Bool Arith List Lra.
From Verif Require Import Prelim CSystem CSystemSpec Num Bem Blade.
Import ListNotations.
Open Scope R_scope.

(** A number multiplied by a positive factor. *)
Definition scaled (k : R) (x : fl) : fl := match x with Fin v => Fin (k * v) | _ => x end.

(** A family of similar rotors and flows: all lengths multiplied by [len], all speeds by [vel], the density by [den], the
    viscosity by [vis]. *)
Record scales := mkScales { len : R; vel : R; den : R; vis : R }.
Definition proper (s : scales) : Prop := 0 < len s /\ 0 < vel s /\ 0 < den s /\ 0 < vis s.
Definition force (s : scales) : R := den s * vel s ^ 2 * len s ^ 2.

(** The constructor arguments of the similar rotor. *)
Definition similar_args (s : scales) (g : args) : args :=
  let L := Rmult (len s) in
  mkArgs (map L (g_r g)) (map L (g_chord g)) (g_theta g) (g_af g) (L (g_Rhub g)) (L (g_Rtip g)) (g_B g) (den s * g_rho g) (vis s * g_mu g)
    (g_precone g) (g_tilt g) (g_yaw g) (g_shearExp g) (L (g_hubHt g)) (g_nSector g)
    (option_map (map L) (g_precurve g)) (L (g_precurveTip g)) (option_map (map L) (g_presweep g)) (L (g_presweepTip g)) (g_opts g) (g_iterRe g).

(** The similar operating condition (wind speed, rotor speed, pitch). *)
Definition similar_condition (s : scales) (c : R * R * R) : R * R * R :=
  let '(U, Om, p) := c in (vel s * U, vel s / len s * Om, p).

(** Same Reynolds number, or airfoils that do not depend on it. *)
Definition ignores_Re (af : airfoil fl) : Prop := forall alpha Re Re', af alpha Re = af alpha Re'.
Definition reynolds_ok (s : scales) (af : list (airfoil fl)) : Prop :=
  vis s = den s * vel s * len s \/ (forall f, In f af -> ignores_Re f).

(** Loads per unit span of the similar station: the non-dimensional quantities are the same. *)
Definition similar_load (s : scales) (l l' : sload fl) : Prop :=
  o_a l' = o_a l /\ o_ap l' = o_ap l /\ o_alpha l' = o_alpha l /\ o_cl l' = o_cl l /\ o_cd l' = o_cd l /\ o_cn l' = o_cn l /\ o_ct l' = o_ct l /\
  o_W l' = scaled (vel s) (o_W l) /\ o_q l' = scaled (den s * vel s ^ 2) (o_q l) /\
  o_Np l' = scaled (force s / len s) (o_Np l) /\ o_Tp l' = scaled (force s / len s) (o_Tp l) /\
  o_Re l' = scaled (den s * vel s * len s / vis s) (o_Re l).

(** Rotor outputs of the similar rotor. *)
Definition similar_out (s : scales) (o o' : outputs) : Prop :=
  let F := force s in let t := y_tot o in let t' := y_tot o' in
  t_T t' = F * t_T t /\ t_Y t' = F * t_Y t /\ t_Z t' = F * t_Z t /\
  t_Q t' = F * len s * t_Q t /\ t_My t' = F * len s * t_My t /\ t_Mz t' = F * len s * t_Mz t /\ t_Mb t' = F * len s * t_Mb t /\
  y_P o' = F * vel s * y_P o.
Definition same_coefficients (o o' : outputs) : Prop :=
  y_CP o' = y_CP o /\ y_CT o' = y_CT o /\ y_CY o' = y_CY o /\ y_CZ o' = y_CZ o /\
  y_CQ o' = y_CQ o /\ y_CMy o' = y_CMy o /\ y_CMz o' = y_CMz o /\ y_CMb o' = y_CMb o.
Definition similar_opt (s : scales) (o o' : option outputs) : Prop :=
  match o, o' with Some a, Some b => similar_out s a b | None, None => True | _, _ => False end.

(** Corresponding results: both succeed and are related, or both raise the same exception. *)
Definition corresponds {X Y} (P : X -> Y -> Prop) (a : res X) (b : res Y) : Prop :=
  match a, b with Ok x, Ok y => P x y | Raise e, Raise e' => e = e' | _, _ => False end.

(** ** Symmetries *)
(** What a call of distributedAeroLoads returns to its caller. *)
Definition section_loads (npi : R) (bq : rootfinder fl) (b : blade) (U Om p az : R) : res (list (sload fl)) :=
  bind (distributedAeroLoads npi bq b U Om p az) (fun x => Ok (snd x)).

(** All twist angles increased by d degrees. *)
Definition twisted (d : R) (g : args) : args :=
  mkArgs (g_r g) (g_chord g) (map (fun t => t + d) (g_theta g)) (g_af g) (g_Rhub g) (g_Rtip g) (g_B g) (g_rho g) (g_mu g)
    (g_precone g) (g_tilt g) (g_yaw g) (g_shearExp g) (g_hubHt g) (g_nSector g)
    (g_precurve g) (g_precurveTip g) (g_presweep g) (g_presweepTip g) (g_opts g) (g_iterRe g).

(** Yaw and tilt reversed. *)
Definition reversed (g : args) : args :=
  mkArgs (g_r g) (g_chord g) (g_theta g) (g_af g) (g_Rhub g) (g_Rtip g) (g_B g) (g_rho g) (g_mu g)
    (g_precone g) (- g_tilt g) (- g_yaw g) (g_shearExp g) (g_hubHt g) (g_nSector g)
    (g_precurve g) (g_precurveTip g) (g_presweep g) (g_presweepTip g) (g_opts g) (g_iterRe g).

(** Sum over k < n. *)
Fixpoint total (n : nat) (f : nat -> R) : R := match n with O => 0 | S m => total m f + f m end.

(** Force and moment of one blade on the hub, in the rotating azimuth frame, from its section loads (integrated by thrustTorque,
    see C11): axial, tangential and radial force; torque and flapwise moment. *)
Definition blade_force (b : blade) (Np Tp : list R) : vec3 :=
  let '(T, Y, Z, Q, M) := thrustTorque (length (b_r b)) (aget Np) (aget Tp) (aget (b_r b)) (aget (b_precurve b)) (aget (b_presweep b))
    (b_precone b) (b_Rhub b) (b_Rtip b) (b_precurveTip b) (b_presweepTip b) in (T, Y, Z).
Definition blade_moment (b : blade) (Np Tp : list R) : vec3 :=
  let '(T, Y, Z, Q, M) := thrustTorque (length (b_r b)) (aget Np) (aget Tp) (aget (b_r b)) (aget (b_precurve b)) (aget (b_presweep b))
    (b_precone b) (b_Rhub b) (b_Rtip b) (b_precurveTip b) (b_presweepTip b) in (Q, M, 0).
(** The same vector in the fixed hub frame, by the conversions of csystem.py. *)
Definition in_hub_frame (azimuth : R) (v : vec3) : vec3 := coords (apply [AzimuthToHub azimuth] (of_coords v)).

(** Outputs under reversal of yaw and tilt: the loads in the rotor plane change sign, the others do not. *)
Definition opposite_out (o o' : outputs) : Prop :=
  let t := y_tot o in let t' := y_tot o' in
  t_T t' = t_T t /\ t_Q t' = t_Q t /\ t_Mb t' = t_Mb t /\ y_P o' = y_P o /\
  t_Y t' = - t_Y t /\ t_Z t' = - t_Z t /\ t_My t' = - t_My t /\ t_Mz t' = - t_Mz t.
Definition opposite_coefficients (o o' : outputs) : Prop :=
  y_CT o' = y_CT o /\ y_CQ o' = y_CQ o /\ y_CMb o' = y_CMb o /\ y_CP o' = y_CP o /\
  y_CY o' = - y_CY o /\ y_CZ o' = - y_CZ o /\ y_CMy o' = - y_CMy o /\ y_CMz o' = - y_CMz o.
Definition opposite_opt (coefficients : Prop) (o o' : option outputs) : Prop :=
  match o, o' with Some a, Some b => opposite_out a b /\ (coefficients -> opposite_coefficients a b) | None, None => True | _, _ => False end.
