(** Vocabulary of the derivative properties of the class CCBlade. *)
From Coquelicot Require Import Coquelicot.
From Coq Require Import Reals Bool Arith List Lra.
From Verif Require Import Prelim Num Bem BemGeomSpec IndSpec DiffSpec BemDiff Blade BladeDiff.
Import ListNotations.
Open Scope R_scope.

(** The airfoil's coefficients are differentiable at (alpha, Re) and [afd] gives their partial derivatives. *)
Definition smooth_airfoil (af : airfoil R) (afd : airfoil_dv) (alpha Re : R) : Prop :=
  let '(cla, clr, cda, cdr) := afd alpha Re in
  differentiable_pt_lim (fun a r => fst (af a r)) alpha Re cla clr /\
  differentiable_pt_lim (fun a r => snd (af a r)) alpha Re cda cdr.

(** The coefficients do not depend on the Reynolds number. *)
Definition re_free (af : airfoil R) : Prop := forall alpha Re Re', af alpha Re = af alpha Re'.

(** [g] is the gradient of the function F of the first n variables at x: the derivative along every
    differentiable curve through x is the inner product with the curve's velocity. *)
Definition gradient (n : nat) (F : (nat -> R) -> R) (x g : nat -> R) : Prop :=
  forall (X : nat -> R -> R) (t : R) (d : nat -> R), (forall i, (i < n)%nat -> X i t = x i) -> curves_derive n X t d ->
  is_derive (fun s => F (at_time X s)) t (inner n g d).

(** One station as a function of x = [phi, chord, theta, Vx, Vy, r, Rhub, Rtip, pitch]. *)
Definition rotor_at (rt : rotor R) (x : nat -> R) : rotor R :=
  mkRotor (x 6%nat) (x 7%nat) (rt_B rt) (rt_rho rt) (rt_mu rt) (rt_opts rt) (rt_iterRe rt) (x 8%nat).
Definition sect_at (af : airfoil R) (x : nat -> R) : sect R :=
  mkSect (x 5%nat) (x 1%nat) (x 2%nat) af (x 3%nat) (x 4%nat).

(** x with the angle phi in front of the other eight variables. *)
Definition with_phi (phi : R) (y : nat -> R) (k : nat) : R := match k with O => phi | S j => y j end.

(** Normal and tangential load of a result. *)
Definition Np_of (l : res (sload R)) : R := match l with Ok l => o_Np l | Raise _ => 0 end.
Definition Tp_of (l : res (sload R)) : R := match l with Ok l => o_Tp l | Raise _ => 0 end.
Definition station_Np (rt : rotor R) (rot : bool) (af : airfoil R) (x : nat -> R) : R :=
  Np_of (loads (rotor_at rt x) (x 0%nat) rot (sect_at af x)).
Definition station_Tp (rt : rotor R) (rot : bool) (af : airfoil R) (x : nat -> R) : R :=
  Tp_of (loads (rotor_at rt x) (x 0%nat) rot (sect_at af x)).
(** The residual for iterRe = 1. *)
Definition station_res (rt : rotor R) (af : airfoil R) (x : nat -> R) : R :=
  errf (rotor_at rt x) (sect_at af x) 0 (x 0%nat).

(** The induction formulas are inside one of their branches (hypotheses of C34). *)
Definition regular_ind (o : bemopts) (B : nat) (r chord Rhub Rtip phi cl cd : R) : Prop :=
  r <> 0 /\ sin phi <> 0 /\ losses_apply o B r Rhub Rtip phi /\
  axial_branch phi (loading o B r chord Rhub Rtip phi cl cd) (lossF o B r Rhub Rtip phi) /\
  (wakerotation o = true -> cos phi <> 0 /\ loading_t o B r chord Rhub Rtip phi cl cd <> 1).

(** First Reynolds number and angle of attack (no induction). *)
Definition W0 (x : nat -> R) : R := sqrt (x 3%nat ^ 2 + x 4%nat ^ 2).
Definition Re0 (rt : rotor R) (x : nat -> R) : R := rt_rho rt * W0 x * x 1%nat / rt_mu rt.
Definition aoa (x : nat -> R) : R := x 0%nat - (x 2%nat + x 8%nat).

(** A rotating station at which everything in __residualDerivatives is differentiable. *)
Definition regular_station (rt : rotor R) (af : airfoil R) (afd : airfoil_dv) (x : nat -> R) : Prop :=
  rt_mu rt <> 0 /\ x 1%nat <> 0 /\ x 3%nat <> 0 /\ x 4%nat <> 0 /\
  smooth_airfoil af afd (aoa x) (Re0 rt x) /\
  let '(cl, cd) := af (aoa x) (Re0 rt x) in
  regular_ind (rt_opts rt) (rt_B rt) (x 5%nat) (x 1%nat) (x 6%nat) (x 7%nat) (x 0%nat) cl cd.

(** ** The blade *)

(** A curve of designs and its velocity [v], field by field, in the user's units. *)
Definition arrays_derive (n : nat) (f : R -> nat -> R) (t : R) (d : nat -> R) : Prop :=
  forall i, (i < n)%nat -> is_derive (fun s => f s i) t (d i).
Definition design_derive (n : nat) (D : R -> design) (t : R) (v : design) : Prop :=
  arrays_derive n (fun s => x_r (D s)) t (x_r v) /\ arrays_derive n (fun s => x_chord (D s)) t (x_chord v) /\
  arrays_derive n (fun s => x_theta (D s)) t (x_theta v) /\ arrays_derive n (fun s => x_precurve (D s)) t (x_precurve v) /\
  arrays_derive n (fun s => x_presweep (D s)) t (x_presweep v) /\
  is_derive (fun s => x_precone (D s)) t (x_precone v) /\ is_derive (fun s => x_tilt (D s)) t (x_tilt v) /\
  is_derive (fun s => x_hubHt (D s)) t (x_hubHt v) /\ is_derive (fun s => x_Rhub (D s)) t (x_Rhub v) /\
  is_derive (fun s => x_Rtip (D s)) t (x_Rtip v) /\ is_derive (fun s => x_precurveTip (D s)) t (x_precurveTip v) /\
  is_derive (fun s => x_presweepTip (D s)) t (x_presweepTip v) /\ is_derive (fun s => x_yaw (D s)) t (x_yaw v) /\
  is_derive (fun s => x_shear (D s)) t (x_shear v) /\ is_derive (fun s => x_azimuth (D s)) t (x_azimuth v) /\
  is_derive (fun s => x_Uinf (D s)) t (x_Uinf v) /\ is_derive (fun s => x_Omega (D s)) t (x_Omega v) /\
  is_derive (fun s => x_pitch (D s)) t (x_pitch v).

(** What the dictionary [L] of distributedAeroLoads says about the rate of change of the load at station i
    when the design changes at the rates [v]. *)
Definition load_rate (n : nat) (L : ldict) (v : design) (i : nat) : R :=
  inner n (l_dr L i) (x_r v) + inner n (l_dchord L i) (x_chord v) + inner n (l_dtheta L i) (x_theta v)
  + inner n (l_dprecurve L i) (x_precurve v) + inner n (l_dpresweep L i) (x_presweep v)
  + l_dRhub L i * x_Rhub v + l_dRtip L i * x_Rtip v + l_dprecone L i * x_precone v + l_dtilt L i * x_tilt v
  + l_dhubHt L i * x_hubHt v + l_dyaw L i * x_yaw v + l_dshear L i * x_shear v + l_dazimuth L i * x_azimuth v
  + l_dUinf L i * x_Uinf v + l_dOmega L i * x_Omega v + l_dpitch L i * x_pitch v.

(** Same for a dictionary of evaluate. *)
Definition total_rate (n : nat) (E : tdict) (v : design) : R :=
  inner n (e_dr E) (x_r v) + inner n (e_dchord E) (x_chord v) + inner n (e_dtheta E) (x_theta v)
  + inner n (e_dprecurve E) (x_precurve v) + inner n (e_dpresweep E) (x_presweep v)
  + e_dprecone E * x_precone v + e_dtilt E * x_tilt v + e_dhubHt E * x_hubHt v + e_dRhub E * x_Rhub v
  + e_dRtip E * x_Rtip v + e_dprecurveTip E * x_precurveTip v + e_dpresweepTip E * x_presweepTip v
  + e_dyaw E * x_yaw v + e_dshear E * x_shear v + e_dUinf E * x_Uinf v + e_dOmega E * x_Omega v
  + e_dpitch E * x_pitch v.

(** The loads that distributedAeroLoads(derivatives=False) returns at station i. *)
Definition rotating_d (D : design) : bool := negb (reqb (x_Omega D) 0).
Definition station_result (npi : R) (bq : rootfinder R) (fx : fixed) (D : design) (i : nat) : res (sload R) :=
  solve_station npi bq (rotor_d fx D) (rotating_d D) (sect_d fx D i).
Definition blade_Np npi bq fx D i := Np_of (station_result npi bq fx D i).
Definition blade_Tp npi bq fx D i := Tp_of (station_result npi bq fx D i).

(** The blade geometry and the wind profile are inside the domain of C35. *)
Definition wind_ok (fx : fixed) (D : R -> design) (t : R) : Prop :=
  let d := D t in let n := f_n fx in
  let c := defineCurvature n (x_r d) (x_precurve d) (x_presweep d) (radians (x_precone d)) in
  x_hubHt d <> 0 /\ proper_segments n (out_x c) (out_z c) /\
  forall i, (i < n)%nat ->
    0 < 1 + height_az (radians (x_azimuth d)) (radians (x_tilt d)) (out_x c i) (out_y c i) (out_z c i) / x_hubHt d
    \/ forall s, x_shear (D s) = 0.

(** The dictionary holds only the diagonal of d/dr: r does not move, or the blade is straight (see C40). *)
Definition radial_ok (n : nat) (d v : design) : Prop :=
  (forall j, (j < n)%nat -> x_r v j = 0) \/
  ((exists c, forall j, (j < n)%nat -> x_precurve d j = c) /\ (forall j, (S j < n)%nat -> x_r d j < x_r d (S j)) /\
   - PI < radians (x_precone d) < PI).

(** x of station i. *)
Definition xvec (fx : fixed) (d : design) (i : nat) (phi : R) : nat -> R :=
  with_phi phi (fun k => nth k [x_chord d i; radians (x_theta d i); fst (wind_d fx d) i; snd (wind_d fx d) i; x_r d i;
    x_Rhub d; x_Rtip d; radians (x_pitch d)] 0).

(** A rotating station: one pass (iterRe = 1), an airfoil independent of Re, and a solver that, for all designs of the
    curve near t, returns a zero [phi] of the residual that moves differentiably and is a simple zero at t. *)
Definition rotating_ok (npi : R) (bq : rootfinder R) (fx : fixed) (D : R -> design) (t : R) (i : nat) : Prop :=
  let err s := errf (rotor_d fx (D s)) (sect_d fx (D s) i) 0 in
  x_Omega (D t) <> 0 /\ f_iterRe fx = 1%nat /\ re_free (f_af fx i) /\
  exists phi : R -> R, ex_derive phi t /\
    locally t (fun s => solve npi bq (err s) = Ok (phi s) /\ err s (phi s) = 0) /\
    Derive (err t) (phi t) <> 0 /\
    regular_station (rotor_d fx (D t)) (f_af fx i) (f_afd fx i) (xvec fx (D t) i (phi t)) /\
    (forall Re, smooth_airfoil (f_af fx i) (f_afd fx i) (aoa (xvec fx (D t) i (phi t))) Re) /\
    forall l, station_result npi bq fx (D t) i = Ok l ->
      wind_branch (phi t) (o_a l) (o_ap l) (fst (wind_d fx (D t)) i) (snd (wind_d fx (D t)) i).

(** A parked rotor: any differentiable airfoil. *)
Definition parked_ok (npi : R) (fx : fixed) (D : R -> design) (t : R) (i : nat) : Prop :=
  let x := xvec fx (D t) i (npi / 2) in
  (forall s, x_Omega (D s) = 0) /\ f_mu fx <> 0 /\ fst (wind_d fx (D t)) i <> 0 /\ snd (wind_d fx (D t)) i <> 0 /\
  smooth_airfoil (f_af fx i) (f_afd fx i) (aoa x) (Re0 (rotor_d fx (D t)) x).

Definition station_ok npi bq fx D t i : Prop := rotating_ok npi bq fx D t i \/ parked_ok npi fx D t i.

(** ** The rotor *)
Definition sector_design (D : design) (az : R) : design := set_azimuth D (degrees az).
(** Blade loads integrated at azimuth az (radians): (T, Y, Z, Q, M) of one blade. *)
Definition blade_out (npi : R) (bq : rootfinder R) (fx : fixed) (D : design) (az : R) : R * R * R * R * R :=
  thrustTorque (f_n fx) (blade_Np npi bq fx (sector_design D az)) (blade_Tp npi bq fx (sector_design D az))
    (x_r D) (x_precurve D) (x_presweep D) (radians (x_precone D)) (x_Rhub D) (x_Rtip D) (x_precurveTip D) (x_presweepTip D).
Definition oT (p : R * R * R * R * R) : R := fst (fst (fst (fst p))).
Definition oY (p : R * R * R * R * R) : R := snd (fst (fst (fst p))).
Definition oZ (p : R * R * R * R * R) : R := snd (fst (fst p)).
Definition oQ (p : R * R * R * R * R) : R := snd (fst p).
Definition oM (p : R * R * R * R * R) : R := snd p.

Definition list_sum (f : R -> R) (l : list R) : R := fold_right (fun x acc => f x + acc) 0 l.

(** Rotor totals: B blades, mean over the azimuths. *)
Definition rotor_totals (npi : R) (bq : rootfinder R) (fx : fixed) (D : design) : totals :=
  let o := blade_out npi bq fx D in
  let azs := azimuths (f_nSector fx) in
  let B := INR (f_B fx) in let m := INR (f_nSector fx) in
  mkTot (B * list_sum (fun az => oT (o az)) azs / m)
        (B * list_sum (fun az => oY (o az) * cos az - oZ (o az) * sin az) azs / m)
        (B * list_sum (fun az => oZ (o az) * cos az + oY (o az) * sin az) azs / m)
        (B * list_sum (fun az => oQ (o az)) azs / m)
        (B * list_sum (fun az => oM (o az) * cos az) azs / m)
        (B * list_sum (fun az => oM (o az) * sin az) azs / m)
        (list_sum (fun az => oM (o az)) azs / m).

(** Power and coefficients. *)
Definition rotor_radius (D : design) : R :=
  x_Rtip D * cos (radians (x_precone D)) + x_precurveTip D * sin (radians (x_precone D)).
Definition force_scale (fx : fixed) (D : design) : R := 1 / 2 * f_rho fx * x_Uinf D ^ 2 * (PI * rotor_radius D ^ 2).
Definition moment_scale (fx : fixed) (D : design) : R := force_scale fx D * rotor_radius D.
Definition power (T : totals) (D : design) : R := t_Q T * x_Omega D * PI / 30.

(** Everything C64 needs, at every azimuth; and the integration path is proper. *)
Definition sectors_ok (npi : R) (bq : rootfinder R) (fx : fixed) (D : R -> design) (t : R) (v : design) : Prop :=
  radial_ok (f_n fx) (D t) v /\
  (forall rf cf wf, extends (f_n fx) (x_Rhub (D t)) (x_r (D t)) (x_Rtip (D t)) rf ->
     extends (f_n fx) 0 (x_precurve (D t)) (x_precurveTip (D t)) cf ->
     let c := defineCurvature (f_n fx + 2) rf cf wf (radians (x_precone (D t))) in
     proper_segments (f_n fx + 2) (out_x c) (out_z c)) /\
  forall az, In az (azimuths (f_nSector fx)) ->
    let Da := fun s => sector_design (D s) az in
    wind_ok fx Da t /\
    forall i, (i < f_n fx)%nat -> station_ok npi bq fx Da t i /\
      forall l, station_result npi bq fx (Da t) i = Ok l -> o_ct l <> 0.
