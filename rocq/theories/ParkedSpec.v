(** Vocabulary of the parked rotor (C87, C88). *)
From Coq Require Import Reals List.
From Verif Require Import Prelim Num Bem Blade IndSpec BladeSpec FlProofs StationExist SimilaritySpec.
Import ListNotations.
Open Scope R_scope.

(** Loads per unit span of a section of chord c and twist th (radians, as is the pitch p) standing still in a wind of components Vx, Vy:
    the inflow angle is a right angle ([npi]/2, npi being the floating point pi), nothing is induced, lift and drag are those at
    the angle of attack [npi]/2 - th - p and the dynamic pressure is that of the wind. *)
Definition parked_load (npi rho mu c th p Vx Vy : R) (clf cdf : R -> R -> R) (l : sload fl) : Prop :=
  let al := npi / 2 - th - p in
  let W := sqrt (Vx ^ 2 + Vy ^ 2) in
  let q := rho * W ^ 2 / 2 in
  let Re := rho * W * c / mu in
  let cl := clf al Re in
  let cd := cdf al Re in
  rep (o_a l) 0 /\ rep (o_ap l) 0 /\ rep (o_W l) W /\ rep (o_q l) q /\ rep (o_Re l) Re /\ rep (o_alpha l) (degrees al) /\ rep (o_cl l) cl /\ rep (o_cd l) cd /\
  rep (o_Np l) (q * c * (cl * cos (npi / 2) + cd * sin (npi / 2))) /\ rep (o_Tp l) (q * c * (cl * sin (npi / 2) - cd * cos (npi / 2))).

(** Every section of a rotor standing still in a wind carries these loads. *)
Definition parked_always : Prop := forall npi bq g b U p az ls i l c th af clf cdf, construct g = Ok b -> section_loads npi bq b U 0 p az = Ok ls -> nth_error ls i = Some l ->
  nth_error (b_chord b) i = Some c -> nth_error (b_theta b) i = Some (Fin th) -> nth_error (b_af b) i = Some af -> computes af clf cdf -> b_mu b <> 0 -> U <> 0 ->
  let V := wind b U 0 (radians az) in
  parked_load npi (b_rho b) (b_mu b) c th (radians p) (fst V i) (snd V i) clf cdf l.
