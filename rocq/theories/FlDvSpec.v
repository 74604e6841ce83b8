(** Vocabulary for the derivatives with IEEE special values (C97, C98). *)
From Coq Require Import Reals Bool Arith List.
From Verif Require Import Prelim Num Bem BemDiff Blade BladeDiff BladeDiffFl FlProofs.
Import ListNotations.
Open Scope R_scope.

(** All entries of a load dictionary that belong to the load at station i (of n). *)
Definition load_entries {A} (n : nat) (L : g_ldict A) (i : nat) : list A :=
  [gl_dr L i i; gl_dchord L i i; gl_dtheta L i i; gl_dpresweep L i i; gl_dRhub L i; gl_dRtip L i; gl_dprecone L i; gl_dtilt L i;
   gl_dhubHt L i; gl_dyaw L i; gl_dshear L i; gl_dazimuth L i; gl_dUinf L i; gl_dOmega L i; gl_dpitch L i] ++
  map (fun j => gl_dprecurve L i j) (seq 0 n).
(** The same entries of a dictionary of exact numbers. *)
Definition real_load_entries (n : nat) (L : ldict) (i : nat) : list R :=
  [l_dr L i i; l_dchord L i i; l_dtheta L i i; l_dpresweep L i i; l_dRhub L i; l_dRtip L i; l_dprecone L i; l_dtilt L i;
   l_dhubHt L i; l_dyaw L i; l_dshear L i; l_dazimuth L i; l_dUinf L i; l_dOmega L i; l_dpitch L i] ++
  map (fun j => l_dprecurve L i j) (seq 0 n).

(** The entries of a dictionary of evaluate: by scalars, except the two of the tip; by the tip; by arrays. *)
Definition scalar_entries {A} (E : g_tdict A) : list A :=
  [ge_dprecone E; ge_dtilt E; ge_dhubHt E; ge_dRhub E; ge_dRtip E; ge_dyaw E; ge_dshear E; ge_dUinf E; ge_dOmega E; ge_dpitch E].
Definition tip_entries {A} (E : g_tdict A) : list A := [ge_dprecurveTip E; ge_dpresweepTip E].
Definition array_entries {A} (E : g_tdict A) (i : nat) : list A :=
  [ge_dr E i; ge_dchord E i; ge_dtheta E i; ge_dprecurve E i; ge_dpresweep E i].
Definition real_entries (E : tdict) (i : nat) : list R :=
  [e_dprecone E; e_dtilt E; e_dhubHt E; e_dRhub E; e_dRtip E; e_dyaw E; e_dshear E; e_dUinf E; e_dOmega E; e_dpitch E] ++
  [e_dprecurveTip E; e_dpresweepTip E] ++
  [e_dr E i; e_dchord E i; e_dtheta E i; e_dprecurve E i; e_dpresweep E i].

(** The dictionaries agree: each entry stands for the number in the exact dictionary. *)
Definition same_numbers (E : g_tdict fl) (E' : tdict) (i : nat) : Prop :=
  Forall2 rep (scalar_entries E ++ tip_entries E ++ array_entries E i) (real_entries E' i).

(** The station has no wind in the plane of rotation or none across it. *)
Definition windless (fx : fixed) (D : design) (i : nat) : Prop := fst (wind_d fx D) i = 0 \/ snd (wind_d fx D) i = 0.

(** All divisors at station i are non-zero: wind components, tangential force coefficient, slope of the residual. *)
Definition divisors_ok (npi : R) (bq : rootfinder R) (fx : fixed) (D : design) (i : nat) : Prop :=
  ~ windless fx D i /\ exists l dN dT dR, station_dv npi bq fx D i = Ok (l, dN, dT, dR) /\ o_ct l <> 0 /\ dR 0%nat <> 0.

(** No scalar entry is a number. *)
Definition no_scalars (E : g_tdict fl) : Prop := Forall (eq NaN) (scalar_entries E ++ tip_entries E).
(** The dictionaries that evaluate returns. *)
Definition all_dicts (ev : g_eval fl) : list (g_tdict fl) :=
  [gv_dT ev; gv_dY ev; gv_dZ ev; gv_dQ ev; gv_dMy ev; gv_dMz ev; gv_dMb ev; gv_dP ev;
   gv_dCT ev; gv_dCY ev; gv_dCZ ev; gv_dCQ ev; gv_dCMy ev; gv_dCMz ev; gv_dCMb ev; gv_dCP ev].
