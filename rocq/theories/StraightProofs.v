(** Components given no precurve (C121). *)
From Coq Require Import Reals Bool Arith List Lra Lia.
From Verif Require Import Prelim Num Interp Bem BemDiff Blade BladeDiff InterpSpec BladeSpec StationProofs ConstructProofs BladeProofs Component.
Import ListNotations.
Open Scope R_scope.

(** The inputs with another precurve. *)
Definition load_precurve (i : load_in) (pc : list R) : load_in :=
  mkLoadIn (li_r i) (li_chord i) (li_theta i) (li_Rhub i) (li_Rtip i) (li_hub_height i) (li_precone i) (li_tilt i) (li_yaw i) pc
    (li_precurveTip i) (li_B i) (li_rho i) (li_mu i) (li_shearExp i) (li_nSector i) (li_opts i) (li_V i) (li_Omega i) (li_pitch i)
    (li_azimuth i) (li_af i) (li_afd i).
Definition eval_precurve (i : eval_in) (pc : list R) : eval_in :=
  mkEvalIn (ei_r i) (ei_chord i) (ei_theta i) (ei_Rhub i) (ei_Rtip i) (ei_hub_height i) (ei_precone i) (ei_tilt i) (ei_yaw i) pc
    (ei_precurveTip i) (ei_presweep i) (ei_presweepTip i) (ei_B i) (ei_rho i) (ei_mu i) (ei_shearExp i) (ei_nSector i) (ei_opts i)
    (ei_V i) (ei_Omega i) (ei_pitch i) (ei_af i) (ei_afd i).

Lemma fill_zeros r : fill_precurve r [] = fill_precurve r (map (fun _ => 0) r).
Proof. destruct r; reflexivity. Qed.

(** CCBlade's own default, which the components do not use. *)
Definition no_precurve (g : args) : args :=
  mkArgs (g_r g) (g_chord g) (g_theta g) (g_af g) (g_Rhub g) (g_Rtip g) (g_B g) (g_rho g) (g_mu g) (g_precone g) (g_tilt g) (g_yaw g)
    (g_shearExp g) (g_hubHt g) (g_nSector g) None 0 (g_presweep g) (g_presweepTip g) (g_opts g) (g_iterRe g).
Lemma zeros_none g : g_precurve g = Some (map (fun _ => 0) (g_r g)) -> g_precurveTip g = 0 -> construct g = construct (no_precurve g).
Proof.
  intros H1 H2. unfold construct. rewrite H1, H2. cbn [no_precurve g_r g_chord g_theta g_af g_Rhub g_Rtip g_B g_rho g_mu g_precone g_tilt g_yaw
    g_shearExp g_hubHt g_nSector g_precurve g_precurveTip g_presweep g_presweepTip g_opts g_iterRe]. reflexivity.
Qed.

Lemma rotor_straight ri fx D : object ri = Ok (fx, D) -> increasing (g_r (ri_args ri)) ->
  g_precurve (ri_args ri) = Some (map (fun _ => 0) (g_r (ri_args ri))) -> g_precurveTip (ri_args ri) = 0 ->
  (forall k, x_precurve D k = 0) /\ x_precurveTip D = 0.
Proof.
  unfold object. intros E I H1 H2. apply bind_ok in E. destruct E as (b & E & X). apply ok_inj in X. apply pair_equal_spec in X. destruct X as (_ & <-).
  rewrite (zeros_none _ H1 H2) in E. destruct (no_curve_zero (no_precurve (ri_args ri)) b E I) as ((P1 & P2) & _); [reflexivity|].
  cbn [x_precurve x_precurveTip]. split; [|exact P2]. intros k. unfold aget. rewrite P1.
  destruct (Nat.lt_ge_cases k (length (g_r (ri_args ri)))) as [L|L].
  - change (g_r (no_precurve (ri_args ri))) with (g_r (ri_args ri)). exact (map_nth (fun _ : R => 0) _ 0 k).
  - apply nth_overflow. rewrite map_length. exact L.
Qed.
Lemma sweep_needed ri : g_presweep (ri_args ri) = Some [] -> (2 <= length (g_r (ri_args ri)))%nat ->
  (forall l, g_precurve (ri_args ri) = Some l -> length l = length (g_r (ri_args ri))) -> object ri = Raise IndexError.
Proof.
  intros H1 H2 H3. unfold object, construct. replace (Nat.ltb (length (g_r (ri_args ri))) 2) with false by (symmetry; apply Nat.ltb_ge; exact H2).
  rewrite H1. unfold curve_error. 
  assert (T : forall tip l, length l = length (g_r (ri_args ri)) -> tip_error (g_r (ri_args ri)) tip l = None).
  { intros tip l L. unfold tip_error. destruct l; [cbn in L; lia|]. rewrite L, Nat.eqb_refl. reflexivity. }
  rewrite T; [reflexivity|]. destruct (g_precurve (ri_args ri)) as [l|]; [apply H3; reflexivity|apply map_length].
Qed.
