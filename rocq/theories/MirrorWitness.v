(** A swept, yawed and tilted rotor standing still (C126). *)
From Coq Require Import Reals Bool Arith List Lra Lia.
From Verif Require Import Prelim CSystem CSystemSpec Num Bem BemGeomProofs Interp InterpSpec Blade IndSpec BladeSpec FlProofs StationProofs StationWitness StationLoads StationExist BladeProofs
  SectorProofs ConstructProofs SectorWitness SimilaritySpec SimilarityProofs SymmetryProofs SymmetryWitness ParkedSpec ParkedProofs ParkedWitness MirrorSpec MirrorProofs.
Import ListNotations.
Open Scope R_scope.

Definition m_args : args := mkArgs [1; 2] [1; 1] [0; 0] [drag_af; drag_af] (1 / 2) 3 2 1 1 0 30 30 0 80 4 None 0 (Some [0; 1]) 2 off 1.
Definition m_blade : blade :=
  mkBlade [1; 2] [1; 1] [Fin 0; Fin 0] [drag_af; drag_af] (1 / 2) 3 2 1 1 0 (radians 30) (radians 30) 0 80 off 1 [0; 0] 0 [0; 1] 2 3 4 false [] [] [] 0.

Lemma m_construct : construct m_args = Ok m_blade.
Proof.
  unfold construct. cbn [g_r m_args length Nat.ltb Nat.leb g_precurve g_presweep map curve_error tip_error Nat.eqb andb negb].
  cbn [m_args g_chord g_theta g_af g_Rhub g_Rtip g_B g_rho g_mu g_precone g_tilt g_yaw g_shearExp g_hubHt g_nSector g_precurveTip
       g_presweepTip g_opts g_iterRe hd last map].
  rewrite !radians_0, cos_0, sin_0.
  pose proof (interp_zeros m_args d_increasing ltac:(simpl; lia) (nd_tip (r_nd [1; 2]))) as Z.
  cbn [g_r m_args map] in Z. rewrite Z.
  replace (reqb (1 / 2) 1) with false by (symmetry; apply reqb_false; lra).
  replace (reqb 3 2) with false by (symmetry; apply reqb_false; lra).
  replace (reqb 2 1) with false by (symmetry; apply reqb_false; lra).
  replace (reqb (radians 30) 0) with false by (symmetry; apply reqb_false; rewrite rad30; pose proof PI_RGT_0; lra).
  replace (reqb 0 0) with true by (symmetry; apply reqb_true; reflexivity).
  cbn [andb set_last removelast app]. unfold m_blade. replace (3 * 1 + 0 * 0) with 3 by ring. reflexivity.
Qed.

Lemma m_wind az i : (i < 2)%nat -> let V := wind m_blade 10 0 az in
  fst V i = 10 * (cos (radians 30) * cos (radians 30)) /\ snd V i = 10 * (cos (radians 30) * sin (radians 30) * sin az - sin (radians 30) * cos az).
Proof.
  intros Hi. unfold wind. cbn [m_blade b_r b_precurve b_presweep b_precone b_yaw b_tilt b_hubHt b_shearExp length]. unfold windComponents.
  destruct (defineCurvature 2 (aget [1; 2]) (aget [0; 0]) (aget [0; 0]) 0) as [[[[x y] z] cone] s] eqn:EC.
  destruct (d_curvature 2 (aget [1; 2]) (aget [0; 0]) (aget [0; 0]) x y z cone s i Hi (le_n 2)
    ltac:(intros [|[|j]] Hj; reflexivity || lia) ltac:(intros [|[|j]] Hj; reflexivity || lia)
    ltac:(intros [|j] Hj; [unfold aget; simpl; lra|lia]) EC) as (_ & _ & Hc & _).
  unfold defineCurvature in EC |- *. cbv zeta in EC |- *. apply pair_equal_spec in EC. destruct EC as [EC _]. apply pair_equal_spec in EC. destruct EC as [_ EC].
  rewrite EC. cbn [fst snd]. rewrite Hc, cos_0, !sin_0. assert (P : forall u, rpow u 0 = 1) by (intros u; unfold rpow; rewrite (proj2 (reqb_true 0 0) eq_refl); reflexivity). rewrite !P.
  split; field.
Qed.

(** The four azimuths of evaluate. *)
Lemma m_trig k : (k < 4)%nat -> (sin (radians (INR k * 360 / INR 4)) = 0 /\ cos (radians (INR k * 360 / INR 4)) <> 0) \/
  (cos (radians (INR k * 360 / INR 4)) = 0 /\ sin (radians (INR k * 360 / INR 4)) <> 0).
Proof.
  intros Hk. assert (E : radians (INR k * 360 / INR 4) = INR k * (PI / 2)) by (unfold radians; cbn [INR]; field). rewrite E. clear E.
  destruct k as [|[|[|[|k]]]]; [left|right|left|right|lia].
  - cbn [INR]. rewrite Rmult_0_l, sin_0, cos_0. lra.
  - cbn [INR]. rewrite Rmult_1_l, sin_PI2, cos_PI2. lra.
  - replace (INR 2 * (PI / 2)) with PI by (cbn [INR]; field). rewrite sin_PI, cos_PI. lra.
  - replace (INR 3 * (PI / 2)) with (3 * (PI / 2)) by (cbn [INR]; ring). rewrite cos_3PI2, sin_3PI2. lra.
Qed.

Lemma m_loads npi bq k : (k < 4)%nat -> 3 < npi < PI -> exists l0 l1 N0 N1 T0 T1, section_loads npi bq m_blade 10 0 0 (INR k * 360 / INR 4) = Ok [l0; l1] /\
  rep (o_Np l0) N0 /\ rep (o_Np l1) N1 /\ rep (o_Tp l0) T0 /\ rep (o_Tp l1) T1 /\ 0 < N0 /\ 0 < N1.
Proof.
  intros Hk Hn. set (az := radians (INR k * 360 / INR 4)). set (V := wind m_blade 10 0 az).
  pose proof cos30 as C30. assert (S30 : sin (radians 30) = 1 / 2) by (rewrite rad30; apply sin_PI6).
  assert (SN : 0 < sin (npi / 2)) by (apply sin_gt_0; lra).
  assert (ST : forall i, (i < 2)%nat -> exists l N T, station_i npi bq m_blade (radians 0) 0 V i = Ok (Fin 0, l) /\ rep (o_Np l) N /\ rep (o_Tp l) T /\ 0 < N).
  { intros i Hi. destruct (m_wind az i Hi) as [W1 W2]. fold V in W1, W2. cbv zeta in W1, W2. rewrite S30 in W2.
    assert (HX : fst V i <> 0) by (rewrite W1; nra).
    assert (HY : snd V i <> 0). { rewrite W2. unfold az. destruct (m_trig k Hk) as [[-> H]|[-> H]]; nra. }
    unfold station_i. rewrite not_rotating.
    assert (G : pyget (b_r m_blade) i = Ok (aget [1; 2] i) /\ pyget (b_chord m_blade) i = Ok 1 /\ pyget (b_af m_blade) i = Ok drag_af /\ pyget (b_theta m_blade) i = Ok (Fin 0)).
    { destruct i as [|[|i]]; [| |lia]; repeat split. }
    destruct G as (-> & -> & -> & G4). cbn [bind]. change (b_inverse m_blade) with false. cbv iota. rewrite G4. cbn [bind]. set (sc := mkSect _ _ _ _ _ _).
    destruct (parked_station npi bq (rotor_of m_blade (radians 0)) sc 1 1 1 0 (radians 0) (fst V i) (snd V i) (fun _ _ => 0) (fun _ _ => 1))
      as (l & E & P); try apply rep_Fin; try apply drag_computes; try assumption; try lra.
    rewrite E. cbn [bind]. destruct P as (_ & _ & _ & _ & _ & _ & _ & _ & P1 & P2). eexists _, _, _. split; [reflexivity|]. split; [exact P1|]. split; [exact P2|].
    assert (0 < fst V i ^ 2 + snd V i ^ 2) by nra. rewrite pow2_sqrt by lra. nra. }
  destruct (ST 0%nat ltac:(lia)) as (l0 & N0 & T0 & E0 & A0 & B0 & C0). destruct (ST 1%nat ltac:(lia)) as (l1 & N1 & T1 & E1 & A1 & B1 & C1).
  exists l0, l1, N0, N1, T0, T1. split; [|auto 8]. unfold section_loads, distributedAeroLoads. change (negb (shapes_ok m_blade)) with false. cbv iota.
  change (seq 0 (length (b_r m_blade))) with [0%nat; 1%nat]. cbv zeta. fold az. fold V. cbn [mapM]. rewrite E0. cbn [bind]. rewrite E1. reflexivity.
Qed.

Lemma m_evaluate npi bq : 3 < npi < PI -> exists b' y w, evaluate npi bq m_blade [(10, 0, 0)] = Ok (b', [Some y], w).
Proof.
  intros Hn. pose proof (evaluate_forward npi bq m_blade 10 0 0 eq_refl ltac:(cbn; lia)) as EV.
  destruct (mapM_total (fun az => section_loads npi bq m_blade 10 0 0 (degrees az)) (azimuths (b_nSector m_blade))) as [lss EM].
  { intros az IN. unfold azimuths in IN. apply in_map_iff in IN. destruct IN as (k & <- & IN). apply in_seq in IN. change (b_nSector m_blade) with 4%nat in *. rewrite degrees_az.
    destruct (m_loads npi bq k ltac:(lia) Hn) as (l0 & l1 & N0 & N1 & T0 & T1 & E & _). eauto. }
  rewrite EM in EV. cbn [bind] in EV.
  pose proof (mapM_ok _ _ _ EM) as F2. assert (HL : length lss = length (azimuths (b_nSector m_blade))) by (symmetry; exact (Forall2_len _ _ _ F2)).
  destruct (proj2 (fold_good m_blade (azimuths (b_nSector m_blade)) lss HL)) as [t Et].
  { intros k Hk. assert (NE : nth_error lss k = Some (nth k lss [])) by (apply nth_error_nth'; exact Hk).
    destruct (Forall2_nth_error _ _ _ _ _ F2 NE) as (az & Ea & Eq). apply nth_error_In in Ea. unfold azimuths in Ea. apply in_map_iff in Ea. destruct Ea as (j & <- & IN). apply in_seq in IN.
    change (b_nSector m_blade) with 4%nat in *. rewrite degrees_az in Eq.
    destruct (m_loads npi bq j ltac:(lia) Hn) as (l0 & l1 & N0 & N1 & T0 & T1 & E & R0 & R1 & Q0 & Q1 & _). rewrite E in Eq. apply ok_inj in Eq. rewrite <- Eq.
    exists [N0; N1], [T0; T1]. unfold rep in R0, R1, Q0, Q1. cbn [map fvals]. rewrite R0, R1, Q0, Q1. auto. }
  rewrite Et in EV. cbn [option_map] in EV. eauto.
Qed.
