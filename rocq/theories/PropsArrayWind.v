(** Property C107: wind speeds that differ between stations.

    Anchors: ccblade/ccblade.py CCBlade.distributedAeroLoads, __windComponents; ccblade/src/bem.f90 windComponents. *)
From Coq Require Import Reals Bool Arith List Lra Lia.
From Verif Require Import Prelim CSystem CSystemSpec Num Bem BemGeomProofs Interp InterpSpec Blade IndSpec BladeSpec FlProofs StationProofs StationWitness StationLoads StationExist BladeProofs
  SectorProofs ConstructProofs SectorWitness SimilaritySpec SimilarityProofs SymmetryProofs ParkedSpec ParkedProofs ParkedWitness ArrayWind.
Import ListNotations.
Open Scope R_scope.

Lemma p_wind_at yaw U i : (i < 2)%nat -> let V := wind (p_blade yaw) U 0 (radians 0) in fst V i = U * cos (radians yaw) /\ snd V i = - (U * sin (radians yaw)).
Proof.
  intros Hi. unfold wind. cbn [p_blade b_r b_precurve b_presweep b_precone b_yaw b_tilt b_hubHt b_shearExp length]. unfold windComponents.
  destruct (defineCurvature 2 (aget [1; 2]) (aget [0; 0]) (aget [0; 0]) 0) as [[[[x y] z] cone] s] eqn:EC. cbv zeta. cbn [fst snd].
  destruct (d_curvature 2 (aget [1; 2]) (aget [0; 0]) (aget [0; 0]) x y z cone s i Hi (le_n 2)
    ltac:(intros [|[|j]] Hj; reflexivity || lia) ltac:(intros [|[|j]] Hj; reflexivity || lia)
    ltac:(intros [|j] Hj; [unfold aget; simpl; lra|lia]) EC) as (Hy & Hz & Hc & _).
  rewrite Hy, Hz, Hc, radians_0, cos_0, !sin_0. assert (P : forall u, rpow u 0 = 1) by (intros u; unfold rpow; rewrite (proj2 (reqb_true 0 0) eq_refl); reflexivity). rewrite !P.
  split; field.
Qed.

Lemma p_turned : 0 < cos (radians 30) /\ 0 < sin (radians 30).
Proof. assert (B : 0 < radians 30 < PI / 2) by (pose proof PI_RGT_0; unfold radians; lra). split; [apply cos_gt_0; lra|apply sin_gt_0; lra]. Qed.

(** The speed at every station of the parked rotor is that of the wind. *)
Lemma p_speed_at npi bq U : exists l0 l1, section_loads npi bq (p_blade 30) U 0 0 0 = Ok [l0; l1] /\ rep (o_W l0) (Rabs U) /\ rep (o_W l1) (Rabs U).
Proof.
  destruct p_turned as [C S].
  assert (ST : forall i, (i < 2)%nat -> exists l, station_i npi bq (p_blade 30) (radians 0) 0 (wind (p_blade 30) U 0 (radians 0)) i = Ok (Fin 0, l) /\ rep (o_W l) (Rabs U)).
  { intros i Hi. destruct (p_wind_at 30 U i Hi) as [W1 W2]. unfold station_i. rewrite not_rotating, W1, W2.
    assert (G : pyget (b_r (p_blade 30)) i = Ok (aget [1; 2] i) /\ pyget (b_chord (p_blade 30)) i = Ok 1 /\ pyget (b_af (p_blade 30)) i = Ok drag_af /\ pyget (b_theta (p_blade 30)) i = Ok (Fin 0)).
    { destruct i as [|[|i]]; [| |lia]; repeat split. }
    destruct G as (-> & -> & -> & G4). cbn [bind]. change (b_inverse (p_blade 30)) with false. cbv iota. rewrite G4. cbn [bind].
    set (sc := mkSect _ _ _ _ _ _). destruct (Req_dec U 0) as [Z|N].
    - destruct (loads_ok (rotor_of (p_blade 30) (radians 0)) (Fin (npi / 2)) false sc 0 eq_refl) as (l0 & E0).
      assert (L0 : l0 = zero_load) by (eapply zero_wind_loads; [|exact E0]; left; unfold sc; cbn [s_Vx]; rewrite Z, Rmult_0_l; cbn; apply reqb_true; reflexivity).
      exists zero_load. split; [|rewrite Z, Rabs_R0; apply rep_Fin]. unfold solve_station. cbn [bind ofR fl_arith]. rewrite E0, L0. cbn [bind]. rewrite zero_load_guard. reflexivity.
    - assert (X1 : U * cos (radians 30) <> 0) by (apply Rmult_integral_contrapositive; split; lra).
      assert (X2 : - (U * sin (radians 30)) <> 0) by (apply Ropp_neq_0_compat, Rmult_integral_contrapositive; split; lra).
      destruct (parked_station npi bq (rotor_of (p_blade 30) (radians 0)) sc 1 1 1 0 (radians 0) (U * cos (radians 30)) (- (U * sin (radians 30))) (fun _ _ => 0) (fun _ _ => 1))
        as (l & E & P); try apply rep_Fin; try apply drag_computes; try assumption; try lra.
      exists l. rewrite E. cbn [bind]. split; [reflexivity|]. unfold parked_load in P. cbv zeta in P. destruct P as (_ & _ & P & _).
      replace ((U * cos (radians 30)) ^ 2 + (- (U * sin (radians 30))) ^ 2) with (Rsqr U * (Rsqr (sin (radians 30)) + Rsqr (cos (radians 30)))) in P by (unfold Rsqr; ring).
      rewrite sin2_cos2, Rmult_1_r, sqrt_Rsqr_abs in P. exact P. }
  destruct (ST 0%nat ltac:(lia)) as (l0 & E0 & P0). destruct (ST 1%nat ltac:(lia)) as (l1 & E1 & P1). exists l0, l1. split; [|auto].
  unfold section_loads, distributedAeroLoads. change (negb (shapes_ok (p_blade 30))) with false. cbv iota. change (seq 0 (length (b_r (p_blade 30)))) with [0%nat; 1%nat].
  cbn [mapM]. rewrite E0. cbn [bind]. rewrite E1. reflexivity.
Qed.

(** C107, refuted: whatever the wrapper does with an array, the stations cannot have their own wind speeds. *)
Theorem C107_station_speeds_refuted : forall conv npi bq, ~ station_speeds conv npi bq.
Proof.
  intros conv npi bq H. destruct (H (p_args 30) (p_blade 30) [1; 2] 0 0 0 (p_construct 30) eq_refl) as (ls & E & K).
  destruct (p_speed_at npi bq 1) as (a0 & a1 & E1 & A0 & A1). destruct (p_speed_at npi bq 2) as (c0 & c1 & E2 & C0 & C1).
  pose proof (K 0%nat 1 _ eq_refl E1) as K1. pose proof (K 1%nat 2 _ eq_refl E2) as K2. cbn [nth_error] in K1, K2.
  unfold loads_at_speeds in E. destruct (conv [1; 2]) as [U|e]; [|discriminate E]. cbn [bind] in E. clear H K.
  destruct (p_speed_at npi bq U) as (u0 & u1 & E3 & U0 & U1). rewrite E3 in E. apply ok_inj in E. subst ls. cbn [nth_error] in K1, K2.
  injection K1; intros ->. injection K2; intros ->. pose proof (rep_fun _ _ _ A0 U0) as Q0. pose proof (rep_fun _ _ _ C1 U1) as Q1.
  rewrite Rabs_pos_eq in Q0 by lra. rewrite Rabs_pos_eq in Q1 by lra. lra.
Qed.
Print Assumptions C107_station_speeds_refuted.

(** C107, what holds: a call that returns has used one wind speed for all stations. *)
Theorem C107_one_speed : forall conv npi bq b Us Om p az ls, loads_at_speeds conv npi bq b Us Om p az = Ok ls ->
  exists U, conv Us = Ok U /\ section_loads npi bq b U Om p az = Ok ls.
Proof. intros conv npi bq b Us Om p az ls. unfold loads_at_speeds. destruct (conv Us) as [U|e]; [|discriminate]. cbn [bind]. eauto. Qed.
Print Assumptions C107_one_speed.

(** A wrapper that takes the first element: both stations have the speed 1 although the second was given 2. *)
Example C107_example : forall npi bq, exists l0 l1,
  loads_at_speeds (fun Us => match Us with U :: _ => Ok U | [] => Raise OtherException end) npi bq (p_blade 30) [1; 2] 0 0 0 = Ok [l0; l1] /\ rep (o_W l0) 1 /\ rep (o_W l1) 1.
Proof. intros npi bq. destruct (p_speed_at npi bq 1) as (l0 & l1 & E & H0 & H1). rewrite Rabs_pos_eq in H0, H1 by lra. exists l0, l1. auto. Qed.
