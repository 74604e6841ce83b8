(** Hub height without wind shear: lemmas for C113. *)
From Coq Require Import Reals Bool Arith List Lra Lia FunctionalExtensionality.
From Verif Require Import Prelim CSystem CSystemSpec Num Bem BemDiff Blade BladeDiff StationProofs SimilaritySpec SimilarityProofs SymmetryProofs BladeDvProofs HubSpec.
Import ListNotations.
Open Scope R_scope.

(** ** The numbers *)
Lemma wind_hub n r pc ps precone yaw tilt az U Om h h' :
  windComponents n r pc ps precone yaw tilt az U Om h 0 = windComponents n r pc ps precone yaw tilt az U Om h' 0.
Proof.
  assert (E : forall x, rpow x 0 = 1) by (intros x; unfold rpow; replace (reqb 0 0) with true by (symmetry; apply reqb_true; reflexivity); reflexivity).
  unfold windComponents. destruct (defineCurvature n r pc ps precone) as [[[[x y] z] c] s].
  apply (f_equal2 pair); apply functional_extensionality; intros i; rewrite !E; reflexivity.
Qed.

Definition hub_blade (h : R) (b : blade) : blade :=
  mkBlade (b_r b) (b_chord b) (b_theta b) (b_af b) (b_Rhub b) (b_Rtip b) (b_B b) (b_rho b) (b_mu b)
    (b_precone b) (b_tilt b) (b_yaw b) (b_shearExp b) h (b_opts b) (b_iterRe b)
    (b_precurve b) (b_precurveTip b) (b_presweep b) (b_presweepTip b) (b_rotorR b) (b_nSector b)
    (b_inverse b) (b_cl b) (b_cd b) (b_alpha b) (b_pitch b).

Lemma construct_hub h g : construct (with_hub h g) = match construct g with Ok b => Ok (hub_blade h b) | Raise e => Raise e end.
Proof.
  unfold construct, with_hub.
  cbn [g_r g_chord g_theta g_af g_Rhub g_Rtip g_B g_rho g_mu g_precone g_tilt g_yaw g_shearExp g_hubHt g_nSector g_precurve g_precurveTip g_presweep g_presweepTip g_opts g_iterRe].
  destruct (Nat.ltb (length (g_r g)) 2); [reflexivity|]. cbv zeta. destruct (curve_error _ _ _ _ _); reflexivity.
Qed.
Lemma construct_shear g b : construct g = Ok b -> b_shearExp b = g_shearExp g.
Proof.
  unfold construct. destruct (Nat.ltb (length (g_r g)) 2); [discriminate|]. cbv zeta. destruct (curve_error _ _ _ _ _); [discriminate|].
  intros E. apply ok_inj in E. subst b. reflexivity.
Qed.

Lemma dal_hub npi bq h b U Om p az : b_shearExp b = 0 -> section_loads npi bq b U Om p az = section_loads npi bq (hub_blade h b) U Om p az.
Proof.
  intros Hs. unfold section_loads, distributedAeroLoads. change (shapes_ok (hub_blade h b)) with (shapes_ok b). destruct (negb (shapes_ok b)); [reflexivity|].
  cbv zeta. change (length (b_r (hub_blade h b))) with (length (b_r b)).
  assert (W : wind (hub_blade h b) U Om (radians az) = wind b U Om (radians az)).
  { unfold wind. cbn [hub_blade b_r b_precurve b_presweep b_precone b_yaw b_tilt b_hubHt b_shearExp]. rewrite Hs. apply wind_hub. }
  rewrite W. change (station_i npi bq (hub_blade h b)) with (station_i npi bq b).
  destruct (mapM _ _) as [out|]; reflexivity.
Qed.

(** ** The derivatives *)
Lemma eye_ne i j : i <> j -> eye i j = 0.
Proof. intros E. unfold eye. apply Nat.eqb_neq in E. rewrite E. reflexivity. Qed.

Lemma wind_dv_hub fx D i : (2 <= f_n fx)%nat -> (i < f_n fx)%nat -> x_shear D = 0 ->
  wv_vxd (wind_seeded fx D) (3 * f_n fx + 2) i = 0 /\ wv_vyd (wind_seeded fx D) (3 * f_n fx + 2) i = 0.
Proof.
  intros Hn Hi Hs. unfold wind_seeded. set (n := f_n fx) in *. set (nd := (3 * n + 2)%nat).
  assert (E1 : forall j, (j < n)%nat -> eye nd j = 0) by (intros; apply eye_ne; unfold nd; lia).
  assert (E2 : forall j, (j < n)%nat -> eye nd (n + j) = 0) by (intros; apply eye_ne; unfold nd; lia).
  assert (E3 : forall j, (j < n)%nat -> eye nd (2 * n + j) = 0) by (intros; apply eye_ne; unfold nd; lia).
  assert (E4 : eye nd (3 * n) = 0) by (apply eye_ne; unfold nd; lia).
  assert (E5 : forall m, m <> 2%nat -> eye nd (3 * n + m) = 0) by (intros; apply eye_ne; unfold nd; lia).
  unfold windComponents_dv. cbv zeta. cbn [wv_vxd wv_vyd].
  set (cv := defineCurvature_dv _ _ _ _ _ _ _ _ _).
  assert (XD : forall j, (j < n)%nat -> cv_xd cv nd j = 0).
  { intros j Hj. unfold cv, defineCurvature_dv. cbn [cv_xd]. unfold curv_xd. rewrite (E1 j Hj), (E2 j Hj), E4. ring. }
  assert (ZD : forall j, (j < n)%nat -> cv_zd cv nd j = 0).
  { intros j Hj. unfold cv, defineCurvature_dv. cbn [cv_zd]. unfold curv_zd. rewrite (E1 j Hj), (E2 j Hj), E4. ring. }
  assert (YD : cv_yd cv nd i = 0) by (unfold cv, defineCurvature_dv; cbn [cv_yd]; apply E3; exact Hi).
  assert (SG : forall x z j, (j + 1 < n)%nat -> seg_coned x z (cv_xd cv nd) (cv_zd cv nd) j = 0).
  { intros x z j Hj. unfold seg_coned. rewrite !XD, !ZD by lia. unfold Rdiv. ring. }
  assert (CD : cv_coned cv nd i = 0).
  { change (cv_coned cv nd i) with (curv_coned n (cv_x cv) (cv_z cv) (cv_xd cv nd) (cv_zd cv nd) i). unfold curv_coned.
    destruct (Nat.eqb i 0) eqn:I0; [apply SG; lia|]. apply Nat.eqb_neq in I0. destruct (Nat.eqb i (n - 1)) eqn:I1; [apply SG; lia|].
    apply Nat.eqb_neq in I1. rewrite !SG by lia. ring. }
  assert (PD : forall x xd, pow_dv x xd (x_shear D) 0 = 0).
  { intros x xd. unfold pow_dv. rewrite Hs. replace (reqb 0 0) with true by (symmetry; apply reqb_true; reflexivity). cbn [orb andb].
    destruct (rleb x 0); cbn [andb]; ring. }
  clearbody cv. rewrite !E5 by lia. rewrite PD. rewrite ?XD, ?ZD by exact Hi. rewrite ?YD, ?CD. unfold Rdiv. split; ring.
Qed.

Lemma jac_hub npi bq fx D j : (2 <= f_n fx)%nat -> x_shear D = 0 -> loads_jac npi bq fx D = Ok j ->
  forall i, (i < f_n fx)%nat -> j_NX j 8 i = 0 /\ j_TX j 8 i = 0.
Proof.
  intros Hn Hs Q i Hi. destruct (loads_jac_station npi bq fx D j Q) as (l & dN & dT & dR & _ & ->). cbn [j_NX j_TX].
  destruct (wind_dv_hub fx D i Hn Hi Hs) as [A B].
  assert (K : forall DN, dN_dX DN (dV_dw (f_n fx) (wv_vxd (wind_seeded fx D))) (dV_dw (f_n fx) (wv_vyd (wind_seeded fx D))) 8 i = 0).
  { intros DN. unfold dN_dX, stackX, dN_dw. cbn [Nat.ltb Nat.leb Nat.sub]. unfold dV_dw. rewrite A, B. ring. }
  split; apply K.
Qed.

(** Entry "hubHt" of a gradient. *)
Definition no_hub (g : grad) : Prop := g_s g 2%nat = 0.
Definition all_no_hub (t : totals_dv) : Prop :=
  no_hub (td_T t) /\ no_hub (td_Y t) /\ no_hub (td_Z t) /\ no_hub (td_Q t) /\ no_hub (td_My t) /\ no_hub (td_Mz t) /\ no_hub (td_Mb t).

Lemma no_hub_add a b : no_hub a -> no_hub b -> no_hub (gadd a b).
Proof. unfold no_hub, gadd. cbn [g_s]. intros -> ->. ring. Qed.
Lemma no_hub_scale c a : no_hub a -> no_hub (gscale c a).
Proof. unfold no_hub, gscale. cbn [g_s]. intros ->. ring. Qed.
Lemma asum_none n f : (forall i, (i < n)%nat -> f i = 0) -> asum n f = 0.
Proof. intros E. induction n as [|n IH]; [reflexivity|]. cbn [asum]. rewrite IH, E by (intros; try apply E; lia). ring. Qed.

Lemma sectors_hub npi bq fx D azs : (2 <= f_n fx)%nat -> x_shear D = 0 -> forall t t', all_no_hub t -> sectors_dv npi bq fx D azs t = Ok t' -> all_no_hub t'.
Proof.
  intros Hn Hs. induction azs as [|az azs IH]; intros t t' Ht; cbn [sectors_dv].
  - intros E. apply ok_inj in E. subst t'. exact Ht.
  - destruct (loads_jac _ _ _ _) as [j|] eqn:Ej; [|discriminate]. cbn [bind]. apply IH.
    assert (G : forall q, no_hub (thrustTorqueDeriv fx D j q)).
    { intros q. unfold no_hub, thrustTorqueDeriv. cbn [g_s nth]. apply asum_none. intros i Hi.
      destruct (jac_hub npi bq fx (set_azimuth D (degrees az)) j Hn Hs Ej i Hi) as [-> ->]. ring. }
    destruct Ht as (H1 & H2 & H3 & H4 & H5 & H6 & H7). unfold totd_add. destruct (thrustTorque _ _ _ _ _ _ _ _ _ _ _) as [[[[a b] c] d] e].
    unfold all_no_hub. cbn [td_T td_Y td_Z td_Q td_My td_Mz td_Mb].
    refine (conj _ (conj _ (conj _ (conj _ (conj _ (conj _ _)))))); apply no_hub_add; try assumption; apply no_hub_scale; try apply G;
      apply no_hub_add; apply no_hub_scale; apply G.
Qed.

Lemma evaluate_hub npi bq fx D E : (2 <= f_n fx)%nat -> x_shear D = 0 -> evaluate_dv npi bq fx D = Ok E ->
  Forall (fun e => e_dhubHt e = 0) [ev_dT E; ev_dY E; ev_dZ E; ev_dQ E; ev_dMy E; ev_dMz E; ev_dMb E; ev_dP E;
                                    ev_dCT E; ev_dCY E; ev_dCZ E; ev_dCQ E; ev_dCMy E; ev_dCMz E; ev_dCMb E; ev_dCP E].
Proof.
  intros Hn Hs. unfold evaluate_dv. destruct (sectors_dv _ _ _ _ _ _) as [t|] eqn:Et; [|discriminate]. cbn [bind]. intros Q. apply ok_inj in Q. subst E.
  assert (H0 : all_no_hub totd0) by (repeat (split; [reflexivity|]); reflexivity).
  destruct (sectors_hub npi bq fx D _ Hn Hs _ _ H0 Et) as (H1 & H2 & H3 & H4 & H5 & H6 & H7). unfold no_hub in *.
  unfold finish_dv. cbn [ev_dT ev_dY ev_dZ ev_dQ ev_dMy ev_dMz ev_dMb ev_dP ev_dCT ev_dCY ev_dCZ ev_dCQ ev_dCMy ev_dCMz ev_dCMb ev_dCP].
  unfold tt_dict, dP_of, dC_force, dC_moment, dC_power, dA_ds, dR_ds, dq_ds, dU_ds, dOmega_ds. cbn [g_s nth Nat.eqb].
  repeat (apply Forall_cons; [cbn [e_dhubHt]; rewrite ?H1, ?H2, ?H3, ?H4, ?H5, ?H6, ?H7; unfold Rdiv; ring|]). apply Forall_nil.
Qed.
