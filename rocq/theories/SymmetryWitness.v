(** A yawed two-station rotor of drag-only sections on which evaluate succeeds with a positive thrust (C84-C86). *)
From Coq Require Import Reals Bool Arith List Lra Lia.
From Verif Require Import Prelim CSystem CSystemSpec Num Bem BemGeomProofs Interp InterpSpec Blade BladeSpec FlProofs StationProofs StationWitness StationLoads
  StationExist BladeProofs SectorProofs ConstructProofs SectorWitness SimilaritySpec SimilarityProofs SymmetryProofs.
Import ListNotations.
Open Scope R_scope.

(** The rotor [d_args] with a yaw angle of 30 degrees. *)
Definition y_args : args := mkArgs [1; 2] [1; 1] [0; 0] [drag_af; drag_af] (1 / 2) 3 2 1 1 0 0 30 0 80 4 None 0 None 0 off 1.
Definition y_blade : blade :=
  mkBlade [1; 2] [1; 1] [Fin 0; Fin 0] [drag_af; drag_af] (1 / 2) 3 2 1 1 0 0 (radians 30) 0 80 off 1 [0; 0] 0 [0; 0] 0 3 4 false [] [] [] 0.

Lemma rad30 : radians 30 = PI / 6.
Proof. unfold radians. field. Qed.
Lemma cos30 : 1 / 2 <= cos (radians 30) <= 1.
Proof.
  split; [|apply COS_bound]. rewrite rad30, cos_PI6. assert (1 <= sqrt 3) by (rewrite <- sqrt_1; apply sqrt_le_1; lra). lra.
Qed.
Lemma y_construct : construct y_args = Ok y_blade.
Proof.
  unfold construct. cbn [g_r y_args length Nat.ltb Nat.leb g_precurve g_presweep map curve_error tip_error Nat.eqb andb negb].
  cbn [y_args g_chord g_theta g_af g_Rhub g_Rtip g_B g_rho g_mu g_precone g_tilt g_yaw g_shearExp g_hubHt g_nSector g_precurveTip
       g_presweepTip g_opts g_iterRe hd last map].
  rewrite !radians_0, cos_0, sin_0.
  pose proof (interp_zeros y_args d_increasing ltac:(simpl; lia) (nd_tip (r_nd [1; 2]))) as Z.
  cbn [g_r y_args map] in Z. rewrite Z.
  replace (reqb (1 / 2) 1) with false by (symmetry; apply reqb_false; lra).
  replace (reqb 3 2) with false by (symmetry; apply reqb_false; lra).
  replace (reqb (radians 30) 0) with false by (symmetry; apply reqb_false; rewrite rad30; pose proof PI_RGT_0; lra).
  replace (reqb 0 0) with true by (symmetry; apply reqb_true; reflexivity).
  cbn [andb set_last removelast app]. unfold y_blade. replace (3 * 1 + 0 * 0) with 3 by ring. reflexivity.
Qed.

Lemma y_wind az i : (i < 2)%nat -> let Vx := fst (wind y_blade 1 (60 / PI) az) i in let Vy := snd (wind y_blade 1 (60 / PI) az) i in
  1 / 2 <= Vx <= 1 /\ 1 <= Vy <= 5.
Proof.
  intros Hi. unfold wind. cbn [y_blade b_r b_precurve b_presweep b_precone b_yaw b_tilt b_hubHt b_shearExp length]. unfold windComponents.
  destruct (defineCurvature 2 (aget [1; 2]) (aget [0; 0]) (aget [0; 0]) 0) as [[[[x y] z] cone] s] eqn:EC. cbv zeta. cbn [fst snd].
  destruct (d_curvature 2 (aget [1; 2]) (aget [0; 0]) (aget [0; 0]) x y z cone s i Hi (le_n 2)
    ltac:(intros [|[|j]] Hj; reflexivity || lia) ltac:(intros [|[|j]] Hj; reflexivity || lia)
    ltac:(intros [|j] Hj; [unfold aget; simpl; lra|lia]) EC) as (Hy & Hz & Hc & _).
  rewrite Hy, Hz, Hc, cos_0, !sin_0. assert (P : forall u, rpow u 0 = 1) by (intros u; unfold rpow; rewrite (proj2 (reqb_true 0 0) eq_refl); reflexivity). rewrite !P.
  pose proof cos30 as C. pose proof (SIN_bound (radians 30)) as S. pose proof (COS_bound az) as A.
  assert (B : - 1 <= sin (radians 30) * cos az <= 1) by (split; nra).
  replace (60 / PI * PI / 30) with 2 by (field; apply PI_neq0).
  assert (Z : 1 <= aget [1; 2] i <= 2) by (destruct i as [|[|i]]; [unfold aget; simpl; lra|unfold aget; simpl; lra|lia]).
  split; lra.
Qed.

Lemma y_loads npi bq p az : 3 < npi < PI -> root_inside bq -> accepts_sign_change bq ->
  exists l0 l1 N0 N1 T0 T1, section_loads npi bq y_blade 1 (60 / PI) p az = Ok [l0; l1] /\
    fval (o_Np l0) = Some N0 /\ fval (o_Np l1) = Some N1 /\ fval (o_Tp l0) = Some T0 /\ fval (o_Tp l1) = Some T1 /\ 0 < N0 /\ 0 < N1.
Proof.
  intros Hn Hb1 Hb2. pose proof PI_RGT_0 as HP.
  assert (HO : reqb (60 / PI) 0 = false) by (apply reqb_false; assert (0 < 60 / PI) by (apply Rdiv_lt_0_compat; lra); lra).
  set (V := wind y_blade 1 (60 / PI) (radians az)).
  assert (S : forall i, (i < 2)%nat -> exists l N T, station_i npi bq y_blade (radians p) (60 / PI) V i = Ok (Fin 0, l) /\
     rep (o_Np l) N /\ 0 < N /\ rep (o_Tp l) T).
  { intros i Hi. destruct (y_wind (radians az) i Hi) as [A B]. fold V in A, B. cbv zeta in A, B.
    destruct (drag_station npi bq 2 (INR i + 1) 1 0 (radians p) (fst V i) (snd V i) (1 / 2) 3 1 1) as (l & N & T & E & H1 & H2 & H3 & _);
      try assumption; try lra; try lia.
    - destruct i as [|[|i]]; [simpl; lra|simpl; lra|lia].
    - destruct i as [|[|i]]; [simpl; lra|simpl; lra|lia].
    - apply Rle_ge. apply Rmult_le_reg_r with (snd V i); [lra|]. unfold Rdiv at 2. rewrite Rmult_assoc, Rinv_l by lra. lra.
    - exists l, N, T. split; [|auto]. unfold station_i. rewrite HO. cbn [negb]. destruct i as [|[|i]]; [| |lia].
      + replace (INR 0 + 1) with 1 in * by (simpl; ring).
        change (bind (solve_station npi bq (mkRotor (Fin (1 / 2)) (Fin 3) 2 (Fin 1) (Fin 1) off 1 (Fin (radians p))) true
          (mkSect (Fin 1) (Fin 1) (Fin 0) drag_af (Fin (fst V 0%nat)) (Fin (snd V 0%nat)))) (fun l0 => Ok (Fin 0, l0)) = Ok (Fin 0, l)).
        rewrite E. reflexivity.
      + replace (INR 1 + 1) with 2 in * by (simpl; ring).
        change (bind (solve_station npi bq (mkRotor (Fin (1 / 2)) (Fin 3) 2 (Fin 1) (Fin 1) off 1 (Fin (radians p))) true
          (mkSect (Fin 2) (Fin 1) (Fin 0) drag_af (Fin (fst V 1%nat)) (Fin (snd V 1%nat)))) (fun l0 => Ok (Fin 0, l0)) = Ok (Fin 0, l)).
        rewrite E. reflexivity. }
  destruct (S 0%nat ltac:(lia)) as (l0 & N0 & T0 & E0 & A0 & B0 & C0).
  destruct (S 1%nat ltac:(lia)) as (l1 & N1 & T1 & E1 & A1 & B1 & C1).
  exists l0, l1, N0, N1, T0, T1. split; [|auto 12]. unfold section_loads, distributedAeroLoads.
  change (shapes_ok y_blade) with true. cbn [negb]. cbv zeta. change (seq 0 (length (b_r y_blade))) with [0%nat; 1%nat]. fold V.
  cbn [mapM]. rewrite E0, E1. reflexivity.
Qed.

Lemma total_pos n f : (1 <= n)%nat -> (forall k, (k < n)%nat -> 0 < f k) -> 0 < total n f.
Proof.
  intros H F. destruct n as [|n]; [lia|]. clear H. induction n as [|n IH]; cbn [total]; [pose proof (F 0%nat ltac:(lia)); lra|].
  pose proof (F (S n) ltac:(lia)). cbn [total] in IH. assert (0 < total n f + f n) by (apply IH; intros; apply F; lia). lra.
Qed.

Lemma y_evaluate npi bq p : 3 < npi < PI -> root_inside bq -> accepts_sign_change bq ->
  exists b' y w, evaluate npi bq y_blade [(1, 60 / PI, p)] = Ok (b', [Some y], w) /\ 0 < t_T (y_tot y).
Proof.
  intros Hn Hb1 Hb2. pose proof (evaluate_forward npi bq y_blade 1 (60 / PI) p eq_refl ltac:(cbn; lia)) as EV.
  destruct (mapM_total (fun az => section_loads npi bq y_blade 1 (60 / PI) p (degrees az)) (azimuths (b_nSector y_blade))) as [lss EM].
  { intros az _. destruct (y_loads npi bq p (degrees az) Hn Hb1 Hb2) as (l0 & l1 & N0 & N1 & T0 & T1 & E & _). eauto. }
  rewrite EM in EV. cbn [bind] in EV.
  pose proof (mapM_ok _ _ _ EM) as F2. assert (HL : length lss = length (azimuths (b_nSector y_blade))) by (symmetry; exact (Forall2_len _ _ _ F2)).
  destruct (proj2 (fold_good y_blade (azimuths (b_nSector y_blade)) lss HL)) as [t Et].
  { intros k Hk. assert (NE : nth_error lss k = Some (nth k lss [])) by (apply nth_error_nth'; exact Hk).
    destruct (Forall2_nth_error _ _ _ _ _ F2 NE) as (az & _ & Eq).
    destruct (y_loads npi bq p (degrees az) Hn Hb1 Hb2) as (l0 & l1 & N0 & N1 & T0 & T1 & E & R0 & R1 & Q0 & Q1 & _). rewrite E in Eq. apply ok_inj in Eq. rewrite <- Eq.
    exists [N0; N1], [T0; T1]. cbn [map fvals]. rewrite R0, R1, Q0, Q1. auto. }
  rewrite Et in EV. cbn [option_map] in EV. eexists _, _, _. split; [exact EV|].
  destruct (mean_one_condition npi bq y_blade 1 (60 / PI) p _ _ _ eq_refl ltac:(cbn; lia) EV) as (ls & Np & Tp & HLk & HT & _). rewrite HT.
  apply Rmult_lt_0_compat; [cbn; lra|]. apply Rdiv_lt_0_compat; [|cbn; lra]. apply total_pos; [cbn; lia|].
  intros k Hk. destruct (HLk k Hk) as (Ek & F1 & G1).
  destruct (y_loads npi bq p (INR k * 360 / INR (b_nSector y_blade)) Hn Hb1 Hb2) as (l0 & l1 & N0 & N1 & T0 & T1 & E & R0 & R1 & Q0 & Q1 & P0 & P1).
  rewrite E in Ek. apply ok_inj in Ek. rewrite <- Ek in F1, G1. rewrite hub_frame. cbv zeta. unfold c1 at 1. cbn [fst].
  inversion F1 as [|? v0 ? ? V0 F1']; subst. inversion F1' as [|? v1 ? ? V1 F1'']; subst. inversion F1''; subst.
  rewrite R0 in V0. rewrite R1 in V1. injection V0 as <-. injection V1 as <-.
  inversion G1 as [|? u0 ? ? U0 G1']; subst. inversion G1' as [|? u1 ? ? U1 G1'']; subst. inversion G1''; subst.
  unfold blade_force. cbn [y_blade b_r b_precurve b_presweep b_precone b_Rhub b_Rtip b_precurveTip b_presweepTip length].
  destruct (thrustTorque _ _ _ _ _ _ _ _ _ _ _) as [[[[Ts Ys] Zs] Qs] Ms] eqn:ET. unfold c1. cbn [fst].
  exact (proj1 (d_moment _ _ _ _ _ _ _ _ _ P0 P1 ET)).
Qed.
