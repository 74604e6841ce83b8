(** Vocabulary for the motion of the inflow angle (C37, C64): the solver finds the only zero in an interval. *)
From Coquelicot Require Import Coquelicot.
From Coq Require Import Reals List.
From Verif Require Import Prelim Num Bem BemGeomSpec DiffSpec BemDiff Blade BladeDiff BladeDiffSpec.
Open Scope R_scope.

(** p is the only zero of f between lo and hi, and f is continuous there. *)
Definition only_zero (f : R -> R) (lo hi p : R) : Prop :=
  lo < p < hi /\ f p = 0 /\ (forall q, lo < q < hi -> f q = 0 -> q = p) /\ (forall q, lo < q < hi -> continuous f q).

(** [rotating_ok] without asking that the angle is differentiable, or continuous: for all designs of the curve near t the
    solver returns the only zero of the residual in some interval. *)
Definition tracking_ok (npi : R) (bq : rootfinder R) (fx : fixed) (D : R -> design) (t : R) (i : nat) : Prop :=
  let err s := errf (rotor_d fx (D s)) (sect_d fx (D s) i) 0 in
  x_Omega (D t) <> 0 /\ f_iterRe fx = 1%nat /\ re_free (f_af fx i) /\
  exists (phi : R -> R) (lo hi : R),
    locally t (fun s => solve npi bq (err s) = Ok (phi s) /\ only_zero (err s) lo hi (phi s)) /\
    Derive (err t) (phi t) <> 0 /\
    regular_station (rotor_d fx (D t)) (f_af fx i) (f_afd fx i) (xvec fx (D t) i (phi t)) /\
    (forall Re, smooth_airfoil (f_af fx i) (f_afd fx i) (aoa (xvec fx (D t) i (phi t))) Re) /\
    forall l, station_result npi bq fx (D t) i = Ok l ->
      wind_branch (phi t) (o_a l) (o_ap l) (fst (wind_d fx (D t)) i) (snd (wind_d fx (D t)) i).

(** [sectors_ok] with [tracking_ok] at every station and azimuth. *)
Definition sectors_track (npi : R) (bq : rootfinder R) (fx : fixed) (D : R -> design) (t : R) (v : design) : Prop :=
  radial_ok (f_n fx) (D t) v /\
  (forall rf cf wf, extends (f_n fx) (x_Rhub (D t)) (x_r (D t)) (x_Rtip (D t)) rf ->
     extends (f_n fx) 0 (x_precurve (D t)) (x_precurveTip (D t)) cf ->
     let c := defineCurvature (f_n fx + 2) rf cf wf (radians (x_precone (D t))) in
     proper_segments (f_n fx + 2) (out_x c) (out_z c)) /\
  forall az, In az (azimuths (f_nSector fx)) ->
    let Da := fun s => sector_design (D s) az in
    wind_ok fx Da t /\
    forall i, (i < f_n fx)%nat -> tracking_ok npi bq fx Da t i /\
      forall l, station_result npi bq fx (Da t) i = Ok l -> o_ct l <> 0.
