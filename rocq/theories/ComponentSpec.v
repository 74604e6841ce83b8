(** Vocabulary of the properties of the OpenMDAO components (C56-C60, C72-C77). *)
From Coquelicot Require Import Coquelicot.
From Coq Require Import Reals Bool Arith List Lra.
From Verif Require Import Prelim Num Bem InterpSpec DiffSpec BemDiff Blade BladeDiff BladeDiffSpec Component.
Import ListNotations.
Open Scope R_scope.

(** Observation of an output; the value for an exception is never used. *)
Definition out {A} (f : A -> R) (r : res A) : R := match r with Ok a => f a | Raise _ => 0 end.
Definition succeeds {A} (r : res A) : Prop := exists a, r = Ok a.

(** ** CCBladeGeometry *)
(** The inputs move differentiably through the ones at time t, with fixed numbers of stations. *)
Definition geom_curve (I : R -> geom_in) (t vRtip vcone : R) (vpc vps : nat -> R) : Prop :=
  (forall s, length (gi_precurve (I s)) = length (gi_precurve (I t)) /\ length (gi_presweep (I s)) = length (gi_precurve (I t))) /\
  is_derive (fun s => gi_Rtip (I s)) t vRtip /\ is_derive (fun s => gi_precone (I s)) t vcone /\
  (forall j, (j < length (gi_precurve (I t)))%nat -> is_derive (fun s => nth j (gi_precurve (I s)) 0) t (vpc j)) /\
  (forall j, (j < length (gi_precurve (I t)))%nat -> is_derive (fun s => nth j (gi_presweep (I s)) 0) t (vps j)).
Definition geom_rate (n : nat) (w : geom_row) (vRtip vcone : R) (vpc vps : nat -> R) : R :=
  gr_Rtip w * vRtip + gr_precone w * vcone + inner n (gr_precurve w) vpc + inner n (gr_presweep w) vps.

(** ** The rotor seen by CCBladeLoads and CCBladeEvaluate *)
Definition curve_of (r : list R) (c : option (list R)) : list R := match c with Some l => l | None => map (fun _ => 0) r end.
Definition tip_of (c : option (list R)) (tip : R) : R := match c with Some _ => tip | None => 0 end.
(** One array per station, and its last entry is not the tip's, or it is zero everywhere. *)
Definition clear_tip (r : list R) (c : option (list R)) (tip : R) : Prop :=
  length (curve_of r c) = length r /\
  (last (curve_of r c) 0 <> tip_of c tip \/ curve_of r c = map (fun _ => 0) r).
(** The constructor moves no station: the stations are strictly between hub and tip. *)
Definition clear_ends (g : args) : Prop :=
  (2 <= length (g_r g))%nat /\ increasing (g_r g) /\ hd 0 (g_r g) <> g_Rhub g /\ last (g_r g) 0 <> g_Rtip g /\
  clear_tip (g_r g) (g_precurve g) (g_precurveTip g) /\ clear_tip (g_r g) (g_presweep g) (g_presweepTip g).

(** One azimuth for an axisymmetric inflow, else at least four. *)
Definition sector_count (g : args) : nat :=
  if andb (andb (reqb (g_tilt g) 0) (reqb (g_yaw g) 0)) (reqb (g_shearExp g) 0) then 1%nat else Nat.max 4 (g_nSector g).

(** The inputs themselves as design and as fixed data. *)
Definition given_design (i : rotor_in) : design :=
  let g := ri_args i in let k := ri_call i in
  mkDesign (aget (g_r g)) (aget (g_chord g)) (aget (g_theta g)) (aget (curve_of (g_r g) (g_precurve g)))
    (aget (curve_of (g_r g) (g_presweep g))) (g_precone g) (g_tilt g) (g_hubHt g) (g_Rhub g) (g_Rtip g)
    (tip_of (g_precurve g) (g_precurveTip g)) (tip_of (g_presweep g) (g_presweepTip g)) (g_yaw g) (g_shearExp g)
    (k_az k) (k_U k) (k_Om k) (k_p k).
Definition given_fixed (i : rotor_in) : fixed :=
  let g := ri_args i in
  mkFixed (length (g_r g)) (ri_af i) (ri_afd i) (g_B g) (g_rho g) (g_mu g) (g_opts g) (g_iterRe g) (sector_count g).

(** ** CCBladeLoads *)
(** What one row of J says about the rate of the load at station i. *)
Definition load_J_rate (n : nat) (J : load_jac_row) (v : design) (i : nat) : R :=
  inner n (J_r J i) (x_r v) + inner n (J_chord J i) (x_chord v) + inner n (J_theta J i) (x_theta v)
  + inner n (J_precurve J i) (x_precurve v) + J_Rhub J i * x_Rhub v + J_Rtip J i * x_Rtip v + J_hub_height J i * x_hubHt v
  + J_precone J i * x_precone v + J_tilt J i * x_tilt v + J_yaw J i * x_yaw v + J_shearExp J i * x_shear v
  + J_V_load J i * x_Uinf v + J_Omega_load J i * x_Omega v + J_pitch_load J i * x_pitch v + J_azimuth_load J i * x_azimuth v.

(** The last call of compute in the history that did not raise has inputs i. *)
Definition latest (npi : R) (bq : rootfinder R) (h : list lcall) (i : load_in) : Prop :=
  exists h1 h2, h = h1 ++ Compute i :: h2 /\ succeeds (loads_compute npi bq i) /\
    forall j, In (Compute j) h2 -> ~ succeeds (loads_compute npi bq j).
(** The answer of compute_partials after history h. *)
Definition partials_after (npi : R) (bq : rootfinder R) (h : list lcall) (i : load_in) : res (load_jac_row * load_jac_row) :=
  match snd (loads_step npi bq (loads_run npi bq h) (Partials i)) with RJac j => j | ROut _ => Raise OtherException end.

(** The azimuth count does not matter for one azimuth. *)
Definition load_design (i : load_in) : design := given_design (load_rotor i).
Definition load_fixed (i : load_in) : fixed :=
  mkFixed (length (li_r i)) (li_af i) (li_afd i) (li_B i) (li_rho i) (li_mu i) (li_opts i) 1 1.

(** ** CCBladeEvaluate *)
Definition eval_J_rate (n : nat) (K : eval_row) (v : design) : R :=
  inner n (K_r K) (x_r v) + inner n (K_chord K) (x_chord v) + inner n (K_theta K) (x_theta v)
  + inner n (K_precurve K) (x_precurve v) + inner n (K_presweep K) (x_presweep v)
  + K_Rhub K * x_Rhub v + K_Rtip K * x_Rtip v + K_hub_height K * x_hubHt v + K_precone K * x_precone v + K_tilt K * x_tilt v
  + K_yaw K * x_yaw v + K_shearExp K * x_shear v + K_V_load K * x_Uinf v + K_Omega_load K * x_Omega v
  + K_pitch_load K * x_pitch v + K_precurveTip K * x_precurveTip v + K_presweepTip K * x_presweepTip v.
Definition eval_design (i : eval_in) : design := given_design (eval_rotor i).
Definition eval_fixed (i : eval_in) : fixed := given_fixed (eval_rotor i).

Definition set_rho (i : eval_in) (rho : R) : eval_in :=
  mkEvalIn (ei_r i) (ei_chord i) (ei_theta i) (ei_Rhub i) (ei_Rtip i) (ei_hub_height i) (ei_precone i) (ei_tilt i) (ei_yaw i)
    (ei_precurve i) (ei_precurveTip i) (ei_presweep i) (ei_presweepTip i) (ei_B i) rho (ei_mu i) (ei_shearExp i) (ei_nSector i)
    (ei_opts i) (ei_V i) (ei_Omega i) (ei_pitch i) (ei_af i) (ei_afd i).
Definition set_yaw (i : eval_in) (yaw : R) : eval_in :=
  mkEvalIn (ei_r i) (ei_chord i) (ei_theta i) (ei_Rhub i) (ei_Rtip i) (ei_hub_height i) (ei_precone i) (ei_tilt i) yaw
    (ei_precurve i) (ei_precurveTip i) (ei_presweep i) (ei_presweepTip i) (ei_B i) (ei_rho i) (ei_mu i) (ei_shearExp i) (ei_nSector i)
    (ei_opts i) (ei_V i) (ei_Omega i) (ei_pitch i) (ei_af i) (ei_afd i).
Definition set_Rhub (i : load_in) (Rhub : R) : load_in :=
  mkLoadIn (li_r i) (li_chord i) (li_theta i) Rhub (li_Rtip i) (li_hub_height i) (li_precone i) (li_tilt i) (li_yaw i)
    (li_precurve i) (li_precurveTip i) (li_B i) (li_rho i) (li_mu i) (li_shearExp i) (li_nSector i) (li_opts i)
    (li_V i) (li_Omega i) (li_pitch i) (li_azimuth i) (li_af i) (li_afd i).

(** ** CCBladeTwist *)
(** Twist above 20 degrees (radians; an infinite twist too, NaN not). *)
Definition too_twisted (t : fl) : Prop := match t with Fin x => radians 20 < x | PInf => True | _ => False end.
(** The profile [b] is the capped version of [a]. *)
Definition capped (a b : list fl) : Prop :=
  length b = length a /\
  (forall k, ~ too_twisted (nth k b NaN)) /\
  (forall m, too_twisted (nth m a NaN) -> (forall k, (m < k)%nat -> ~ too_twisted (nth k a NaN)) ->
     forall k, ((k <= m)%nat -> nth k b NaN = Fin (radians 20)) /\ ((m < k)%nat -> nth k b NaN = nth k a NaN)) /\
  ((forall k, ~ too_twisted (nth k a NaN)) -> b = a).

(** Reynolds number of a blade section moving at v. *)
Definition section_Re (rho mu chord v : R) : R := rho * v * chord / mu.
(** Speed of the station at radius r of a rotor whose point at radius rad moves at tsr * Uhub. *)
Definition swept_speed (i : twist_in) (rad r : R) : R := wi_tsr i * wi_Uhub i * (r / rad).
(** The first station thinner than 95 percent. *)
Definition first_below_95 (rthick : list R) (m : nat) : Prop :=
  (exists t, nth_error rthick m = Some t /\ t < 95) /\ forall k t, (k < m)%nat -> nth_error rthick k = Some t -> 95 <= t.
