(** A parked two-station rotor of drag-only sections at any yaw angle (C87, C88). *)
From Coq Require Import Reals Bool Arith List Lra Lia.
From Verif Require Import Prelim CSystem CSystemSpec Num Bem BemGeomProofs Interp InterpSpec Blade IndSpec BladeSpec FlProofs StationProofs StationWitness StationLoads StationExist BladeProofs
  SectorProofs ConstructProofs SectorWitness SimilaritySpec SimilarityProofs SymmetryProofs ParkedSpec ParkedProofs.
Import ListNotations.
Open Scope R_scope.

Definition p_args (yaw : R) : args := mkArgs [1; 2] [1; 1] [0; 0] [drag_af; drag_af] (1 / 2) 3 2 1 1 0 0 yaw 0 80 4 None 0 None 0 off 1.
Definition p_blade (yaw : R) : blade :=
  mkBlade [1; 2] [1; 1] [Fin 0; Fin 0] [drag_af; drag_af] (1 / 2) 3 2 1 1 0 0 (radians yaw) 0 80 off 1 [0; 0] 0 [0; 0] 0 3
    (if reqb (radians yaw) 0 then 1 else 4)%nat false [] [] [] 0.

Lemma p_construct yaw : construct (p_args yaw) = Ok (p_blade yaw).
Proof.
  unfold construct. cbn [g_r p_args length Nat.ltb Nat.leb g_precurve g_presweep map curve_error tip_error Nat.eqb andb negb].
  cbn [p_args g_chord g_theta g_af g_Rhub g_Rtip g_B g_rho g_mu g_precone g_tilt g_yaw g_shearExp g_hubHt g_nSector g_precurveTip
       g_presweepTip g_opts g_iterRe hd last map].
  rewrite !radians_0, cos_0, sin_0.
  pose proof (interp_zeros (p_args yaw) d_increasing ltac:(simpl; lia) (nd_tip (r_nd [1; 2]))) as Z.
  cbn [g_r p_args map] in Z. rewrite Z.
  replace (reqb (1 / 2) 1) with false by (symmetry; apply reqb_false; lra).
  replace (reqb 3 2) with false by (symmetry; apply reqb_false; lra).
  replace (reqb 0 0) with true by (symmetry; apply reqb_true; reflexivity).
  cbn [andb set_last removelast app Nat.max]. unfold p_blade. replace (3 * 1 + 0 * 0) with 3 by ring.
  replace (andb (reqb (radians yaw) 0) true) with (reqb (radians yaw) 0) by (destruct (reqb (radians yaw) 0); reflexivity). reflexivity.
Qed.

Lemma p_wind yaw i : (i < 2)%nat -> let V := wind (p_blade yaw) 10 0 (radians 0) in fst V i = 10 * cos (radians yaw) /\ snd V i = - (10 * sin (radians yaw)).
Proof.
  intros Hi. unfold wind. cbn [p_blade b_r b_precurve b_presweep b_precone b_yaw b_tilt b_hubHt b_shearExp length]. unfold windComponents.
  destruct (defineCurvature 2 (aget [1; 2]) (aget [0; 0]) (aget [0; 0]) 0) as [[[[x y] z] cone] s] eqn:EC. cbv zeta. cbn [fst snd].
  destruct (d_curvature 2 (aget [1; 2]) (aget [0; 0]) (aget [0; 0]) x y z cone s i Hi (le_n 2)
    ltac:(intros [|[|j]] Hj; reflexivity || lia) ltac:(intros [|[|j]] Hj; reflexivity || lia)
    ltac:(intros [|j] Hj; [unfold aget; simpl; lra|lia]) EC) as (Hy & Hz & Hc & _).
  rewrite Hy, Hz, Hc, radians_0, cos_0, !sin_0. assert (P : forall u, rpow u 0 = 1) by (intros u; unfold rpow; rewrite (proj2 (reqb_true 0 0) eq_refl); reflexivity). rewrite !P.
  split; field.
Qed.

Lemma drag_computes : computes drag_af (fun _ _ => 0) (fun _ _ => 1).
Proof. intros a b c d _ _. split; apply rep_Fin. Qed.

Lemma p_station npi bq yaw i (Hi : (i < 2)%nat) : 0 <= yaw < 90 -> exists l, station_i npi bq (p_blade yaw) (radians 0) 0 (wind (p_blade yaw) 10 0 (radians 0)) i = Ok (Fin 0, l) /\
  (yaw = 0 -> l = zero_load) /\ (0 < yaw -> parked_load npi 1 1 1 0 (radians 0) (10 * cos (radians yaw)) (- (10 * sin (radians yaw))) (fun _ _ => 0) (fun _ _ => 1) l).
Proof.
  intros Hy. destruct (p_wind yaw i Hi) as [W1 W2]. unfold station_i. rewrite not_rotating, W1, W2.
  assert (G : pyget (b_r (p_blade yaw)) i = Ok (aget [1; 2] i) /\ pyget (b_chord (p_blade yaw)) i = Ok 1 /\ pyget (b_af (p_blade yaw)) i = Ok drag_af /\ pyget (b_theta (p_blade yaw)) i = Ok (Fin 0)).
  { destruct i as [|[|i]]; [| |lia]; repeat split. }
  destruct G as (-> & -> & -> & G4). cbn [bind]. change (b_inverse (p_blade yaw)) with false. cbv iota. rewrite G4. cbn [bind].
  set (sc := mkSect _ _ _ _ _ _).
  destruct (Req_dec yaw 0) as [->|N].
  - assert (Z : - (10 * sin (radians 0)) = 0) by (rewrite radians_0, sin_0; ring).
    destruct (loads_ok (rotor_of (p_blade 0) (radians 0)) (Fin (npi / 2)) false sc 0 eq_refl) as (l0 & E0).
    assert (L0 : l0 = zero_load) by (eapply zero_wind_loads; [|exact E0]; right; unfold sc; cbn [s_Vy]; rewrite Z; cbn; apply reqb_true; reflexivity).
    exists zero_load. split; [|split; [reflexivity|lra]]. unfold solve_station. cbn [bind ofR fl_arith]. rewrite E0, L0. cbn [bind]. rewrite zero_load_guard. reflexivity.
  - assert (B : 0 < radians yaw < PI / 2) by (pose proof PI_RGT_0; unfold radians; nra).
    assert (C : 0 < cos (radians yaw)) by (apply cos_gt_0; lra). assert (S : 0 < sin (radians yaw)) by (apply sin_gt_0; lra).
    destruct (parked_station npi bq (rotor_of (p_blade yaw) (radians 0)) sc 1 1 1 0 (radians 0) (10 * cos (radians yaw)) (- (10 * sin (radians yaw))) (fun _ _ => 0) (fun _ _ => 1))
      as (l & E & P); try apply rep_Fin; try apply drag_computes; try lra.
    exists l. rewrite E. cbn [bind]. split; [reflexivity|]. split; [intros; contradiction|intros _; exact P].
Qed.

Lemma p_loads npi bq yaw : 0 <= yaw < 90 -> exists l0 l1, section_loads npi bq (p_blade yaw) 10 0 0 0 = Ok [l0; l1] /\
  (yaw = 0 -> l0 = zero_load /\ l1 = zero_load) /\
  (0 < yaw -> forall l, l = l0 \/ l = l1 -> parked_load npi 1 1 1 0 (radians 0) (10 * cos (radians yaw)) (- (10 * sin (radians yaw))) (fun _ _ => 0) (fun _ _ => 1) l).
Proof.
  intros Hy. destruct (p_station npi bq yaw 0 ltac:(lia) Hy) as (l0 & E0 & A0 & B0). destruct (p_station npi bq yaw 1 ltac:(lia) Hy) as (l1 & E1 & A1 & B1).
  exists l0, l1. split; [|split; [auto|intros H l [->| ->]; auto]].
  unfold section_loads, distributedAeroLoads. change (negb (shapes_ok (p_blade yaw))) with false. cbv iota. change (seq 0 (length (b_r (p_blade yaw)))) with [0%nat; 1%nat].
  cbn [mapM]. rewrite E0. cbn [bind]. rewrite E1. reflexivity.
Qed.

Lemma p_speed yaw : sqrt ((10 * cos (radians yaw)) ^ 2 + (- (10 * sin (radians yaw))) ^ 2) = 10.
Proof.
  replace ((10 * cos (radians yaw)) ^ 2 + (- (10 * sin (radians yaw))) ^ 2) with (100 * (Rsqr (sin (radians yaw)) + Rsqr (cos (radians yaw)))) by (unfold Rsqr; ring).
  rewrite sin2_cos2. replace (100 * 1) with (10 * 10) by ring. apply sqrt_square. lra.
Qed.

Lemma parked_jump : ~ parked_always /\
  forall npi bq, 3 < npi < PI -> exists (g : R -> args) (K : R), 0 < K /\ forall yaw, 0 <= yaw < 90 -> exists b l0 l1, g_yaw (g yaw) = yaw /\ construct (g yaw) = Ok b /\
    section_loads npi bq b 10 0 0 0 = Ok [l0; l1] /\ (yaw = 0 -> rep (o_Np l0) 0 /\ rep (o_Np l1) 0) /\ (0 < yaw -> rep (o_Np l0) K /\ rep (o_Np l1) K).
Proof.
  split.
  - intros H. destruct (p_loads 3 (fun _ _ _ => Raise ValueError) 0 ltac:(lra)) as (l0 & l1 & E & Z & _). destruct (Z eq_refl) as [-> ->].
    specialize (H 3 (fun _ _ _ => Raise ValueError) (p_args 0) (p_blade 0) 10 0 0 _ 0%nat zero_load 1 0 drag_af _ _ (p_construct 0) E eq_refl eq_refl eq_refl eq_refl drag_computes
      ltac:(cbn; lra) ltac:(lra)). cbv zeta in H. destruct H as (_ & _ & H & _). destruct (p_wind 0 0 ltac:(lia)) as [W1 W2]. rewrite W1, W2, p_speed in H.
    pose proof (rep_zero_val _ H). lra.
  - intros npi bq Hn. exists p_args, (50 * sin (npi / 2)). split; [assert (0 < sin (npi / 2)) by (apply sin_gt_0; lra); lra|].
    intros yaw Hy. destruct (p_loads npi bq yaw Hy) as (l0 & l1 & E & Z & P). exists (p_blade yaw), l0, l1. split; [reflexivity|]. split; [apply p_construct|]. split; [exact E|]. split.
    + intros H. destruct (Z H) as [-> ->]. split; apply rep_Fin.
    + intros H. assert (G : forall l, l = l0 \/ l = l1 -> rep (o_Np l) (50 * sin (npi / 2))).
      { intros l Hl. specialize (P H l Hl). unfold parked_load in P. cbv zeta in P. destruct P as (_ & _ & _ & _ & _ & _ & _ & _ & P & _). rewrite p_speed in P.
        match type of P with rep _ ?x => replace x with (50 * sin (npi / 2)) in P by field end. exact P. }
      split; apply G; auto.
Qed.
