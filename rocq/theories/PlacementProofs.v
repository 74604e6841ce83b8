(** Proofs about rotors whose blades occupy the same points of space (C89, C90). *)
From Coquelicot Require Import Coquelicot.
From Coq Require Import Reals Bool Arith List Lra Lia FunctionalExtensionality.
From Verif Require Import Prelim CSystem CSystemSpec Num Bem BemGeomSpec BemGeomProofs Interp InterpSpec Blade IndSpec IndProofs BladeSpec FlProofs StationProofs StationWitness StationLoads StationExist BladeProofs
  SectorProofs ConstructProofs SectorWitness SimilaritySpec SimilarityProofs SymmetryProofs ParkedSpec ParkedProofs PlacementSpec.
Import ListNotations.
Open Scope R_scope.

Lemma place_coords b i : station_place b i =
  (curv_x (aget (b_r b)) (aget (b_precurve b)) (b_precone b) i, curv_y (aget (b_presweep b)) i, curv_z (aget (b_r b)) (aget (b_precurve b)) (b_precone b) i).
Proof. unfold station_place. rewrite station_az_coords, radians_degrees. reflexivity. Qed.

Lemma same_coords b b' i : station_place b' i = station_place b i ->
  curv_x (aget (b_r b')) (aget (b_precurve b')) (b_precone b') i = curv_x (aget (b_r b)) (aget (b_precurve b)) (b_precone b) i /\
  curv_y (aget (b_presweep b')) i = curv_y (aget (b_presweep b)) i /\
  curv_z (aget (b_r b')) (aget (b_precurve b')) (b_precone b') i = curv_z (aget (b_r b)) (aget (b_precurve b)) (b_precone b) i.
Proof. rewrite !place_coords. intros E. injection E; auto. Qed.

Lemma same_wind b b' U Om az i : same_site b b' -> same_stations b b' -> (i < length (b_r b))%nat ->
  fst (wind b' U Om az) i = fst (wind b U Om az) i /\ snd (wind b' U Om az) i = snd (wind b U Om az) i.
Proof.
  intros (E1 & E2 & E3 & E4 & _) (HL & EL & _ & _ & HP) Hi. unfold wind, windComponents. rewrite E1, E2, E3, E4, EL.
  unfold defineCurvature. cbv zeta. cbn [fst snd].
  destruct (same_coords b b' i (HP i Hi)) as (X & Y & Z). rewrite X, Y, Z.
  rewrite (curv_cone_ext (length (b_r b)) _ _ (curv_x (aget (b_r b)) (aget (b_precurve b)) (b_precone b)) (curv_z (aget (b_r b)) (aget (b_precurve b)) (b_precone b)) i HL Hi).
  - split; reflexivity.
  - intros j Hj. apply (same_coords b b' j (HP j Hj)).
  - intros j Hj. apply (same_coords b b' j (HP j Hj)).
Qed.

Lemma parked_same npi bq bq' b b' U p az : same_site b b' -> same_sections b b' -> same_stations b b' ->
  section_loads npi bq' b' U 0 p az = section_loads npi bq b U 0 p az.
Proof.
  intros HS HC HT. pose proof HT as (_ & EL & S1 & S2 & HP). pose proof HS as (E1 & E2 & E3 & E4 & E5 & E6). pose proof HC as (C1 & C2 & C3 & C4 & C5 & C6 & C7 & C8 & C9 & C10).
  unfold section_loads, distributedAeroLoads. rewrite S1, S2. cbn [negb]. cbv zeta. rewrite EL.
  assert (M : mapM (station_i npi bq' b' (radians p) 0 (wind b' U 0 (radians az))) (seq 0 (length (b_r b))) =
              mapM (station_i npi bq b (radians p) 0 (wind b U 0 (radians az))) (seq 0 (length (b_r b)))).
  { apply mapM_ext. intros i Hi. apply in_seq in Hi. destruct (same_wind b b' U 0 (radians az) i HS HT ltac:(lia)) as [W1 W2].
    unfold station_i. rewrite not_rotating, W1, W2, C1, C2, C3, C4, C5, C6, C7.
    destruct (nth_error (b_r b) i) as [r|] eqn:R; [|apply nth_error_None in R; lia].
    destruct (nth_error (b_r b') i) as [r'|] eqn:R'; [|apply nth_error_None in R'; lia].
    assert (Q : pyget (b_r b) i = Ok r /\ pyget (b_r b') i = Ok r') by (unfold pyget; rewrite R, R'; auto). destruct Q as [-> ->]. cbn [bind].
    destruct (pyget (b_chord b) i) as [c|]; [|reflexivity]. destruct (pyget (b_af b) i) as [af|]; [|reflexivity]. cbn [bind].
    assert (RR : forall sc sc' phi, s_chord sc' = s_chord sc -> s_theta sc' = s_theta sc -> s_af sc' = s_af sc -> s_Vx sc' = s_Vx sc -> s_Vy sc' = s_Vy sc ->
      loads (rotor_of b' (radians p)) phi false sc' = loads (rotor_of b (radians p)) phi false sc).
    { intros sc sc' phi D1 D2 D3 D4 D5. unfold loads. rewrite D1, D2, D3, D4, D5. unfold rotor_of. cbn [rt_pitch rt_rho rt_mu]. rewrite E5, E6. reflexivity. }
    destruct (b_inverse b).
    - destruct (pyget (b_cl b) i); [|reflexivity]. destruct (pyget (b_cd b) i); [|reflexivity]. destruct (pyget (b_alpha b) i); [|reflexivity]. cbn [bind].
      unfold solve_station_inverse. cbn [bind]. cbv zeta. change (rt_pitch (rotor_of b' (radians p))) with (rt_pitch (rotor_of b (radians p))).
      erewrite RR; [reflexivity|reflexivity..].
    - destruct (pyget (b_theta b) i); [|reflexivity]. cbn [bind]. unfold solve_station. cbn [bind]. erewrite RR; [reflexivity|reflexivity..]. }
  rewrite M. destruct (mapM (station_i npi bq b (radians p) 0 (wind b U 0 (radians az))) (seq 0 (length (b_r b)))); reflexivity.
Qed.

(** ** Integration *)
Lemma curv_s_place r c w g n r' c' w' g' i : (i < n)%nat ->
  (forall j, (j < n)%nat -> curv_x r' c' g' j = curv_x r c g j /\ w' j = w j /\ curv_z r' c' g' j = curv_z r c g j) -> curv_s r' c' w' i = curv_s r c w i.
Proof.
  intros Hi H. induction i as [|i IH]; [reflexivity|]. cbn [curv_s]. rewrite IH by lia. f_equal. f_equal.
  assert (D : forall r c g i j, (c i - c j) ^ 2 + (r i - r j) ^ 2 = (curv_x r c g i - curv_x r c g j) ^ 2 + (curv_z r c g i - curv_z r c g j) ^ 2).
  { clear. intros r c g i j. unfold curv_x, curv_z. pose proof (sin2_cos2 g) as T. unfold Rsqr in T.
    assert (T' : sin g * sin g = 1 - cos g * cos g) by lra. ring [T']. }
  pose proof (D r' c' g' (S i) i) as D1. pose proof (D r c g (S i) i) as D2.
  destruct (H (S i) Hi) as (X1 & Y1 & Z1). destruct (H i ltac:(lia)) as (X0 & Y0 & Z0). rewrite X1, X0, Z1, Z0 in D1. rewrite Y1, Y0. lra.
Qed.

Lemma thrust_place n Np Tp r c w g h t ct wt r' c' w' g' h' t' ct' wt' : (2 <= n)%nat ->
  let rf := pad n h r t in let cf := pad n 0 c ct in let wf := pad n 0 w wt in let rf' := pad n h' r' t' in let cf' := pad n 0 c' ct' in let wf' := pad n 0 w' wt' in
  (forall j, (j < n + 2)%nat -> curv_x rf' cf' g' j = curv_x rf cf g j /\ wf' j = wf j /\ curv_z rf' cf' g' j = curv_z rf cf g j) ->
  thrustTorque n Np Tp r' c' w' g' h' t' ct' wt' = thrustTorque n Np Tp r c w g h t ct wt.
Proof.
  intros Hn rf cf wf rf' cf' wf' H. unfold thrustTorque. fold rf cf wf rf' cf' wf'. unfold defineCurvature. cbv zeta.
  assert (S : forall j, (j <= n + 1)%nat -> curv_s rf' cf' wf' j = curv_s rf cf wf j) by (intros j Hj; apply (curv_s_place rf cf wf g (n + 2) rf' cf' wf' g'); [lia|exact H]).
  assert (C : forall j, (j <= n + 1)%nat -> curv_cone (n + 2) (curv_x rf' cf' g') (curv_z rf' cf' g') j = curv_cone (n + 2) (curv_x rf cf g) (curv_z rf cf g) j).
  { intros j Hj. apply curv_cone_ext; [lia|lia| |]; intros k Hk; apply (H k Hk). }
  assert (Z : forall j, (j <= n + 1)%nat -> curv_z rf' cf' g' j = curv_z rf cf g j) by (intros j Hj; apply (H j); lia).
  repeat apply (f_equal2 pair); apply trapz_ext; intros j Hj; cbv beta; rewrite ?S, ?C, ?Z by lia; reflexivity.
Qed.

Lemma same_totals b b' : same_stations b b' -> root_place b' = root_place b -> tip_place b' = tip_place b ->
  forall Np Tp, blade_force b' Np Tp = blade_force b Np Tp /\ blade_moment b' Np Tp = blade_moment b Np Tp.
Proof.
  intros (HL & EL & _ & _ & HP) HR HT Np Tp. unfold blade_force, blade_moment. rewrite EL.
  rewrite (thrust_place (length (b_r b)) (aget Np) (aget Tp) (aget (b_r b)) (aget (b_precurve b)) (aget (b_presweep b)) (b_precone b) (b_Rhub b) (b_Rtip b) (b_precurveTip b) (b_presweepTip b));
    [split; reflexivity|exact HL|].
  intros j Hj. unfold root_place, tip_place in HR, HT. rewrite !station_az_coords, !radians_degrees in HR, HT.
  unfold curv_x, curv_z, pad. destruct (Nat.eqb_spec j 0) as [->|N0]; [injection HR; auto|].
  destruct (Nat.eqb_spec j (length (b_r b) + 1)) as [->|N1]; [injection HT; auto|].
  apply (same_coords b b' (j - 1)). apply HP. lia.
Qed.

(** The rotor radius is the distance of the tip from the axis, the presweep left out. *)
Lemma radius_place g b : construct g = Ok b -> b_rotorR b = c3 (tip_place b).
Proof.
  intros E. unfold construct in E. destruct (Nat.ltb (length (g_r g)) 2); [discriminate|]. cbv zeta in E. destruct (curve_error _ _ _ _ _); [discriminate|]. apply ok_inj in E. subst b.
  unfold tip_place. rewrite station_az_coords, radians_degrees. reflexivity.
Qed.
