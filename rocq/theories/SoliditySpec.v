(** Vocabulary of the property about rotors of equal solidity (C106). *)
From Coq Require Import Reals Bool Arith List.
From Verif Require Import Prelim Num Bem Blade SimilaritySpec.
Import ListNotations.
Open Scope R_scope.

(** The same rotor with [n] blades, the chords changed so that the sum of the chords of all blades is the same. *)
Definition same_solidity (n : nat) (g : args) : args :=
  mkArgs (g_r g) (map (fun c => INR (g_B g) / INR n * c) (g_chord g)) (g_theta g) (g_af g) (g_Rhub g) (g_Rtip g) n (g_rho g) (g_mu g)
    (g_precone g) (g_tilt g) (g_yaw g) (g_shearExp g) (g_hubHt g) (g_nSector g)
    (g_precurve g) (g_precurveTip g) (g_presweep g) (g_presweepTip g) (g_opts g) (g_iterRe g).

(** Section loads with the flow unchanged and the loads per unit span and the Reynolds number multiplied by [k]. *)
Definition same_flow (k : R) (l l' : sload fl) : Prop :=
  o_a l' = o_a l /\ o_ap l' = o_ap l /\ o_alpha l' = o_alpha l /\ o_cl l' = o_cl l /\ o_cd l' = o_cd l /\ o_cn l' = o_cn l /\ o_ct l' = o_ct l /\
  o_W l' = o_W l /\ o_q l' = o_q l /\ o_Np l' = scaled k (o_Np l) /\ o_Tp l' = scaled k (o_Tp l) /\ o_Re l' = scaled k (o_Re l).

(** Rotor outputs that agree except for the root bending moment of one blade, which is multiplied by [k]. *)
Definition same_rotor (k : R) (o o' : outputs) : Prop :=
  let t := y_tot o in let t' := y_tot o' in
  t_T t' = t_T t /\ t_Y t' = t_Y t /\ t_Z t' = t_Z t /\ t_Q t' = t_Q t /\ t_My t' = t_My t /\ t_Mz t' = t_Mz t /\ t_Mb t' = k * t_Mb t /\
  y_P o' = y_P o /\
  y_CP o' = y_CP o /\ y_CT o' = y_CT o /\ y_CY o' = y_CY o /\ y_CZ o' = y_CZ o /\
  y_CQ o' = y_CQ o /\ y_CMy o' = y_CMy o /\ y_CMz o' = y_CMz o /\ y_CMb o' = k * y_CMb o.
Definition same_rotor_opt (k : R) (o o' : option outputs) : Prop :=
  match o, o' with Some a, Some b => same_rotor k a b | None, None => True | _, _ => False end.
