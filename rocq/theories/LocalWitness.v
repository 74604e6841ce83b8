(** Parked rotors, yawed 45 degrees, whose outer station is curved by c (C110, C111). *)
From Coq Require Import Reals Bool Arith List Lra Lia.
From Verif Require Import Prelim CSystem CSystemSpec Num Bem BemGeomProofs Interp InterpSpec Blade IndSpec BladeSpec FlProofs StationProofs StationWitness StationLoads StationExist BladeProofs
  SectorProofs ConstructProofs SectorWitness DeriveLib SimilaritySpec SimilarityProofs SymmetryProofs ParkedSpec ParkedProofs ParkedWitness LocalSpec LocalProofs.
Import ListNotations.
Open Scope R_scope.

(** [c] is the precurve, [d] the chord of the outer station. *)
Definition c_args (c d : R) : args := mkArgs [1; 2] [1; d] [0; 0] [drag_af; drag_af] (1 / 2) 3 2 1 1 0 0 45 0 80 4 (Some [0; c]) (c + 1) None 0 off 1.
Definition c_blade (c d : R) : blade :=
  mkBlade [1; 2] [1; d] [Fin 0; Fin 0] [drag_af; drag_af] (1 / 2) 3 2 1 1 0 0 (radians 45) 0 80 off 1 [0; c] (c + 1) [0; 0] 0 3 4 false [] [] [] 0.

Lemma rad45 : radians 45 = PI / 4.
Proof. unfold radians. field. Qed.

Lemma c_construct c d : construct (c_args c d) = Ok (c_blade c d).
Proof.
  unfold construct. cbn [g_r c_args length Nat.ltb Nat.leb g_precurve g_presweep map curve_error tip_error Nat.eqb andb negb].
  cbn [c_args g_chord g_theta g_af g_Rhub g_Rtip g_B g_rho g_mu g_precone g_tilt g_yaw g_shearExp g_hubHt g_nSector g_precurveTip
       g_presweepTip g_opts g_iterRe hd last map].
  rewrite !radians_0, cos_0, sin_0.
  pose proof (interp_zeros (p_args 0) d_increasing ltac:(simpl; lia) (nd_tip (r_nd [1; 2]))) as Z.
  cbn [g_r p_args map] in Z. rewrite Z.
  replace (reqb (1 / 2) 1) with false by (symmetry; apply reqb_false; lra).
  replace (reqb 3 2) with false by (symmetry; apply reqb_false; lra).
  replace (reqb (c + 1) c) with false by (symmetry; apply reqb_false; lra).
  replace (reqb 0 0) with true by (symmetry; apply reqb_true; reflexivity).
  replace (reqb (radians 45) 0) with false by (symmetry; apply reqb_false; rewrite rad45; pose proof PI_RGT_0; lra).
  cbn [andb set_last removelast app Nat.max]. unfold c_blade. replace (3 * 1 + (c + 1) * 0) with 3 by ring. reflexivity.
Qed.
Lemma c_free c d : ends_free (c_args c d).
Proof. unfold ends_free. cbn. repeat split; lra. Qed.

Lemma c_wind c d i : (i < 2)%nat -> let V := wind (c_blade c d) 10 0 (radians 0) in
  fst V i = 10 * (cos (PI / 4) * cos (atan (- c))) /\ snd V i = - (10 * sin (PI / 4)).
Proof.
  intros Hi. unfold wind. cbn [c_blade b_r b_precurve b_presweep b_precone b_yaw b_tilt b_hubHt b_shearExp length]. unfold windComponents, defineCurvature. cbv zeta. cbn [fst snd].
  assert (EC : curv_cone 2 (curv_x (aget [1; 2]) (aget [0; c]) 0) (curv_z (aget [1; 2]) (aget [0; c]) 0) i = atan (- c)).
  { assert (E : atan2 (- (curv_x (aget [1; 2]) (aget [0; c]) 0 1%nat - curv_x (aget [1; 2]) (aget [0; c]) 0 0%nat)) (curv_z (aget [1; 2]) (aget [0; c]) 0 1%nat - curv_z (aget [1; 2]) (aget [0; c]) 0 0%nat) = atan (- c)).
    { unfold curv_x, curv_z, aget. cbn [nth]. rewrite cos_0, sin_0. rewrite atan2_right by lra. f_equal. field. }
    destruct i as [|[|i]]; [exact E|exact E|lia]. }
  rewrite EC, rad45, !radians_0, cos_0, !sin_0.
  assert (P : forall u, rpow u 0 = 1) by (intros u; unfold rpow; rewrite (proj2 (reqb_true 0 0) eq_refl); reflexivity). rewrite !P.
  unfold curv_y, aget. destruct i as [|[|i]]; [| |lia]; cbn [nth]; split; field.
Qed.

Lemma c_loads npi bq c d : exists l0 l1, section_loads npi bq (c_blade c d) 10 0 0 0 = Ok [l0; l1] /\
  rep (o_W l0) (sqrt ((10 * (cos (PI / 4) * cos (atan (- c)))) ^ 2 + (- (10 * sin (PI / 4))) ^ 2)).
Proof.
  pose proof PI_RGT_0 as HP. pose proof (atan_bound (- c)) as AB.
  assert (C : 0 < cos (atan (- c))) by (apply cos_gt_0; lra). assert (C4 : 0 < cos (PI / 4)) by (apply cos_gt_0; lra). assert (S4 : 0 < sin (PI / 4)) by (apply sin_gt_0; lra).
  pose proof (Rmult_lt_0_compat _ _ C4 C) as M.
  assert (G : forall i, (i < 2)%nat -> exists l, station_i npi bq (c_blade c d) (radians 0) 0 (wind (c_blade c d) 10 0 (radians 0)) i = Ok (Fin 0, l) /\
    rep (o_W l) (sqrt ((10 * (cos (PI / 4) * cos (atan (- c)))) ^ 2 + (- (10 * sin (PI / 4))) ^ 2))).
  { intros i Hi. destruct (c_wind c d i Hi) as [W1 W2]. unfold station_i. rewrite not_rotating, W1, W2.
    assert (G : pyget (b_r (c_blade c d)) i = Ok (aget [1; 2] i) /\ pyget (b_chord (c_blade c d)) i = Ok (aget [1; d] i) /\ pyget (b_af (c_blade c d)) i = Ok drag_af /\ pyget (b_theta (c_blade c d)) i = Ok (Fin 0)).
    { destruct i as [|[|i]]; [| |lia]; repeat split. }
    destruct G as (-> & -> & -> & G4). cbn [bind]. change (b_inverse (c_blade c d)) with false. cbv iota. rewrite G4. cbn [bind].
    set (sc := mkSect _ _ _ _ _ _).
    destruct (parked_station npi bq (rotor_of (c_blade c d) (radians 0)) sc 1 1 (aget [1; d] i) 0 (radians 0) (10 * (cos (PI / 4) * cos (atan (- c)))) (- (10 * sin (PI / 4))) (fun _ _ => 0) (fun _ _ => 1))
      as (l & E & P); try apply rep_Fin; try apply drag_computes; try lra.
    exists l. rewrite E. cbn [bind]. split; [reflexivity|]. apply P. }
  destruct (G 0%nat ltac:(lia)) as (l0 & E0 & Q0). destruct (G 1%nat ltac:(lia)) as (l1 & E1 & _). exists l0, l1. split; [|exact Q0].
  unfold section_loads, distributedAeroLoads. change (negb (shapes_ok (c_blade c d))) with false. cbv iota. change (seq 0 (length (b_r (c_blade c d)))) with [0%nat; 1%nat].
  cbn [mapM]. rewrite E0. cbn [bind]. rewrite E1. reflexivity.
Qed.

(** Curving the outer station changes the wind seen by the inner one. *)
Lemma c_differ d : sqrt ((10 * (cos (PI / 4) * cos (atan (- 0)))) ^ 2 + d ^ 2) <> sqrt ((10 * (cos (PI / 4) * cos (atan (- (1))))) ^ 2 + d ^ 2).
Proof.
  pose proof PI_RGT_0 as HP. replace (- 0) with 0 by ring. rewrite atan_0, cos_0. replace (atan (- (1))) with (- (PI / 4)) by (rewrite atan_opp, atan_1; reflexivity). rewrite cos_neg.
  assert (C4 : 0 < cos (PI / 4)) by (apply cos_gt_0; lra). assert (C2 : cos (PI / 4) * cos (PI / 4) = 1 / 2).
  { rewrite cos_PI4. assert (P : 0 < sqrt 2) by (apply sqrt_lt_R0; lra). replace (1 / sqrt 2 * (1 / sqrt 2)) with (1 / (sqrt 2 * sqrt 2)) by (field; lra). rewrite sqrt_sqrt by lra. reflexivity. }
  pose proof (pow2_ge_0 d) as D. set (k := cos (PI / 4)) in *. intros E. apply sqrt_inj in E.
  - replace ((10 * (k * 1)) ^ 2) with (100 * (k * k)) in E by ring. replace ((10 * (k * k)) ^ 2) with (100 * (k * k) ^ 2) in E by ring. rewrite C2 in E. lra.
  - pose proof (pow2_ge_0 (10 * (k * 1))). lra.
  - pose proof (pow2_ge_0 (10 * (k * k))). lra.
Qed.
