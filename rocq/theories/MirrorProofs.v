(** Proofs about the mirrored rotor (C126). *)
From Coq Require Import Reals Bool Arith List Lra Lia FunctionalExtensionality.
From Verif Require Import Prelim CSystem CSystemSpec Num Bem BemGeomProofs Interp Blade BladeSpec FlProofs StationProofs StationLoads StationExist BladeProofs SectorProofs
  SimilaritySpec SimilarityProofs SymmetryProofs ParkedSpec ParkedProofs MirrorSpec.
Import ListNotations.
Open Scope R_scope.

Definition mirror_blade (b : blade) : blade :=
  mkBlade (b_r b) (b_chord b) (b_theta b) (b_af b) (b_Rhub b) (b_Rtip b) (b_B b) (b_rho b) (b_mu b) (b_precone b) (b_tilt b) (- b_yaw b)
    (b_shearExp b) (b_hubHt b) (b_opts b) (b_iterRe b) (b_precurve b) (b_precurveTip b) (map Ropp (b_presweep b)) (- b_presweepTip b)
    (b_rotorR b) (b_nSector b) (b_inverse b) (b_cl b) (b_cd b) (b_alpha b) (b_pitch b).

Lemma opp_map l : map Ropp l = map (Rmult (- (1))) l.
Proof. apply map_ext. intros. ring. Qed.
Lemma tip_error_mirror r tip l : tip_error r (- tip) (map Ropp l) = tip_error r tip l.
Proof.
  destruct l as [|x l]; [reflexivity|]. unfold tip_error. rewrite opp_map. cbn [map]. change (- (1) * x :: map (Rmult (- (1))) l) with (map (Rmult (- (1))) (x :: l)).
  rewrite map_length, last_map0. replace (- tip) with (- (1) * tip) by ring. rewrite reqb_both by lra. reflexivity.
Qed.
Lemma curve_error_mirror r pct pc pst ps : curve_error r pct pc (- pst) (map Ropp ps) = curve_error r pct pc pst ps.
Proof. unfold curve_error. rewrite tip_error_mirror. reflexivity. Qed.
Lemma moved_mirror nt nd tip l : (if reqb (- tip) (last (map Ropp l) 0) then set_last (interp nt nd (map Ropp l)) (map Ropp l) else map Ropp l) =
  map Ropp (if reqb tip (last l 0) then set_last (interp nt nd l) l else l).
Proof.
  rewrite !opp_map, last_map0, interp_scale, set_last_map. replace (- tip) with (- (1) * tip) by ring. rewrite reqb_both by lra. destruct (reqb _ _); reflexivity.
Qed.
Lemma construct_mirrored g : construct (mirrored g) = match construct g with Ok b => Ok (mirror_blade b) | Raise e => Raise e end.
Proof.
  unfold construct, mirrored.
  cbn [g_r g_chord g_theta g_af g_Rhub g_Rtip g_B g_rho g_mu g_precone g_tilt g_yaw g_shearExp g_hubHt g_nSector g_precurve g_precurveTip g_presweep g_presweepTip g_opts g_iterRe].
  destruct (Nat.ltb (length (g_r g)) 2); [reflexivity|]. cbv zeta.
  assert (A : match option_map (map Ropp) (g_presweep g) with Some l => l | None => map (fun _ => 0) (g_r g) end =
              map Ropp (match g_presweep g with Some l => l | None => map (fun _ => 0) (g_r g) end)).
  { destruct (g_presweep g); [reflexivity|]. cbn. rewrite map_map. apply map_ext. intros. ring. }
  assert (B : match option_map (map Ropp) (g_presweep g) with Some _ => - g_presweepTip g | None => 0 end =
              - match g_presweep g with Some _ => g_presweepTip g | None => 0 end).
  { destruct (g_presweep g); [reflexivity|]. cbn. ring. }
  rewrite A, B, curve_error_mirror, moved_mirror. destruct (curve_error _ _ _ _ _); [reflexivity|]. unfold mirror_blade.
  cbn [b_r b_chord b_theta b_af b_Rhub b_Rtip b_B b_rho b_mu b_precone b_tilt b_yaw b_shearExp b_hubHt b_opts b_iterRe b_precurve b_precurveTip b_presweep b_presweepTip b_rotorR b_nSector b_inverse b_cl b_cd b_alpha b_pitch].
  replace (radians (- g_yaw g)) with (- radians (g_yaw g)) by (unfold radians, Rdiv; ring). rewrite reqb_opp. reflexivity.
Qed.

Lemma aget_opp l i : aget (map Ropp l) i = - aget l i.
Proof. unfold aget. rewrite <- Ropp_0 at 1. apply map_nth. Qed.
Lemma wind_mirrored b U Om az i : fst (wind (mirror_blade b) U (- Om) (- az)) i = fst (wind b U Om az) i /\
  snd (wind (mirror_blade b) U (- Om) (- az)) i = - snd (wind b U Om az) i.
Proof.
  unfold wind, windComponents, defineCurvature, curv_y. cbn [mirror_blade b_r b_precurve b_presweep b_precone b_yaw b_tilt b_hubHt b_shearExp fst snd].
  rewrite !sin_neg, !cos_neg, aget_opp.
  set (x := curv_x _ _ _). set (z := curv_z _ _ _). set (cone := curv_cone _ x z). set (y := aget (b_presweep b) i).
  replace ((- y * - sin az + z i * cos az) * cos (b_tilt b) - x i * sin (b_tilt b)) with ((y * sin az + z i * cos az) * cos (b_tilt b) - x i * sin (b_tilt b)) by ring.
  set (v := rpow _ _). split; field.
Qed.

(** A parked station sees the square of the wind along the section only. *)
Lemma fmul_one s : fmul (Fin s) (fadd (Fin 1) (Fin 0)) = if reqb s 0 then zero_s (isneg (Fin s)) else Fin s.
Proof.
  cbn [fadd]. replace (1 + 0) with 1 by ring. unfold fmul. replace (reqb 1 0) with false by (symmetry; apply reqb_false; lra). rewrite orb_false_r.
  replace (isneg (Fin 1)) with false by (symmetry; apply rltb_false; lra). rewrite xorb_false_r, Rmult_1_r. reflexivity.
Qed.
Lemma square_opp s : fmul (fmul (Fin (- s)) (fadd (Fin 1) (Fin 0))) (fmul (Fin (- s)) (fadd (Fin 1) (Fin 0))) =
                     fmul (fmul (Fin s) (fadd (Fin 1) (Fin 0))) (fmul (Fin s) (fadd (Fin 1) (Fin 0))).
Proof.
  rewrite !fmul_one, reqb_opp. destruct (reqb s 0) eqn:E.
  - apply reqb_true in E. rewrite E, Ropp_0. reflexivity.
  - unfold fmul. rewrite reqb_opp, E. cbn [orb]. f_equal. ring.
Qed.
Lemma wind_opp phi Vx s pt cc tt rho mu : relativeWind phi (Fin 0) (Fin 0) (Fin Vx) (Fin (- s)) pt cc tt rho mu =
  relativeWind phi (Fin 0) (Fin 0) (Fin Vx) (Fin s) pt cc tt rho mu.
Proof.
  unfold relativeWind. cbn [ofR neq nlt nabs nmul ndiv nsub nadd ncos nsin nsqrt fl_arith].
  assert (LT : flt (Fin 10) (fabs (Fin 0)) = false).
  { rewrite (rep_lt _ _ _ _ (rep_Fin 10) (rep_abs _ _ (rep_Fin 0))). rewrite Rabs_R0. apply rltb_false. lra. }
  rewrite LT, square_opp. reflexivity.
Qed.
Lemma loads_opp (rt : rotor fl) phi r c th af Vx s : loads rt phi false (mkSect r c th af (Fin Vx) (Fin (- s))) = loads rt phi false (mkSect r c th af (Fin Vx) (Fin s)).
Proof.
  unfold loads. cbn [s_Vx s_Vy s_chord s_theta s_af].
  assert (Z : neq (Fin (- s)) (ofR 0) = neq (Fin s) (ofR 0)) by (cbn; apply reqb_opp). rewrite Z.
  destruct (andb _ _); [|reflexivity]. change (@ofR fl _ 0) with (Fin 0). cbv beta zeta.
  rewrite wind_opp. destruct (relativeWind phi (Fin 0) (Fin 0) (Fin Vx) (Fin s) (rt_pitch rt) c th (rt_rho rt) (rt_mu rt)) as [[al W] Re] eqn:ER.
  destruct (af al Re) as [cl cd]. cbn [bind]. rewrite wind_opp, ER. reflexivity.
Qed.
Lemma station_parked npi bq b p (V V' : arr * arr) i : fst V' i = fst V i -> snd V' i = - snd V i ->
  station_i npi bq (mirror_blade b) p 0 V' i = station_i npi bq b p 0 V i.
Proof.
  intros E1 E2. unfold station_i. rewrite not_rotating. cbv zeta. cbn [mirror_blade b_r b_chord b_af b_inverse b_cl b_cd b_alpha b_theta].
  change (rotor_of (mirror_blade b) p) with (rotor_of b p). rewrite E1, E2. generalize (rotor_of b p). intros rt.
  destruct (pyget (b_r b) i); cbn [bind]; [|reflexivity]. destruct (pyget (b_chord b) i); cbn [bind]; [|reflexivity]. destruct (pyget (b_af b) i); cbn [bind]; [|reflexivity].
  destruct (b_inverse b).
  - destruct (pyget (b_cl b) i); cbn [bind]; [|reflexivity]. destruct (pyget (b_cd b) i); cbn [bind]; [|reflexivity]. destruct (pyget (b_alpha b) i); cbn [bind]; [|reflexivity].
    unfold solve_station_inverse. cbn [bind]. rewrite loads_opp. reflexivity.
  - destruct (pyget (b_theta b) i); cbn [bind]; [|reflexivity]. unfold solve_station. cbn [bind]. rewrite loads_opp. reflexivity.
Qed.

Lemma mapM_same {X Y} (f g : X -> res Y) l : (forall x, f x = g x) -> mapM f l = mapM g l.
Proof. intros H. induction l as [|x l IH]; [reflexivity|]. cbn [mapM]. rewrite H, IH. reflexivity. Qed.
Lemma loads_mirrored npi bq b U p az : section_loads npi bq (mirror_blade b) U 0 p (- az) = section_loads npi bq b U 0 p az.
Proof.
  unfold section_loads, distributedAeroLoads. replace (shapes_ok (mirror_blade b)) with (shapes_ok b) by (unfold shapes_ok; cbn [mirror_blade b_r b_precurve b_presweep]; rewrite map_length; reflexivity).
  destruct (negb (shapes_ok b)); [reflexivity|]. cbv zeta. replace (radians (- az)) with (- radians az) by (unfold radians, Rdiv; ring).
  change (length (b_r (mirror_blade b))) with (length (b_r b)).
  rewrite (mapM_same (station_i npi bq (mirror_blade b) (radians p) 0 (wind (mirror_blade b) U 0 (- radians az))) (station_i npi bq b (radians p) 0 (wind b U 0 (radians az)))).
  - destruct (mapM _ _); reflexivity.
  - intros i. destruct (wind_mirrored b U 0 (radians az) i) as [E1 E2]. rewrite Ropp_0 in E1, E2. apply station_parked; assumption.
Qed.

(** ** The mean over the azimuths *)
Definition mir (n k : nat) : nat := if (k =? 0)%nat then 0%nat else (n - k)%nat.
Lemma mir_lt n k : (k < n)%nat -> (mir n k < n)%nat.
Proof. unfold mir. destruct (k =? 0)%nat eqn:E; [apply Nat.eqb_eq in E|apply Nat.eqb_neq in E]; lia. Qed.
Lemma mir_mir n k : (k < n)%nat -> mir n (mir n k) = k.
Proof.
  intros H. unfold mir. destruct (k =? 0)%nat eqn:E; [apply Nat.eqb_eq in E; subst; reflexivity|]. apply Nat.eqb_neq in E.
  rewrite (proj2 (Nat.eqb_neq (n - k) 0)) by lia. lia.
Qed.
Lemma total_first n f : total (S n) f = f 0%nat + total n (fun k => f (S k)).
Proof. induction n as [|n IH]; [cbn; ring|]. change (total (S n) f + f (S n) = f 0%nat + (total n (fun k => f (S k)) + f (S n))). rewrite IH. ring. Qed.
Lemma total_rev n : forall f, total n (fun k => f (n - 1 - k)%nat) = total n f.
Proof.
  induction n as [|n IH]; intros f; [reflexivity|]. rewrite total_first. change (total (S n) f) with (total n f + f n). rewrite <- (IH f), Rplus_comm. f_equal.
  - apply total_ext. intros k Hk. f_equal. lia.
  - f_equal. lia.
Qed.
Lemma total_mir n f : total n (fun k => f (mir n k)) = total n f.
Proof.
  destruct n as [|n]; [reflexivity|]. rewrite !total_first. f_equal. rewrite <- (total_rev n (fun k => f (S k))). apply total_ext. intros k Hk. f_equal. unfold mir. cbn [Nat.eqb]. lia.
Qed.
Lemma mir_angle n k : (k < n)%nat -> INR (mir n k) * 360 / INR n = - (INR k * 360 / INR n) + (if (k =? 0)%nat then 0 else 360).
Proof.
  intros H. assert (INR n <> 0) by (apply not_0_INR; lia). unfold mir. destruct (k =? 0)%nat eqn:E; [apply Nat.eqb_eq in E; subst; cbn [INR]; field; assumption|].
  rewrite minus_INR by lia. field. assumption.
Qed.
Lemma mir_trig n k : (k < n)%nat -> cos (INR k * (2 * PI / INR n)) = cos (INR (mir n k) * (2 * PI / INR n)) /\
  sin (INR k * (2 * PI / INR n)) = - sin (INR (mir n k) * (2 * PI / INR n)).
Proof.
  intros H. assert (INR n <> 0) by (apply not_0_INR; lia). unfold mir. destruct (k =? 0)%nat eqn:E.
  - apply Nat.eqb_eq in E. subst k. cbn [INR]. rewrite Rmult_0_l, sin_0. split; [reflexivity|ring].
  - rewrite minus_INR by lia. replace ((INR n - INR k) * (2 * PI / INR n)) with (- (INR k * (2 * PI / INR n)) + 2 * PI) by (field; assumption).
    rewrite cos_plus, sin_plus, sin_2PI, cos_2PI, cos_neg, sin_neg. split; ring.
Qed.
Lemma mirrored_loads_at npi bq b U p n k : (k < n)%nat ->
  section_loads npi bq (mirror_blade b) U 0 p (INR k * 360 / INR n) = section_loads npi bq b U 0 p (INR (mir n k) * 360 / INR n).
Proof.
  intros H. rewrite (mir_angle n k H). rewrite <- (Ropp_involutive (INR k * 360 / INR n)) at 1. rewrite loads_mirrored.
  destruct (k =? 0)%nat; [rewrite Rplus_0_r; reflexivity|]. rewrite loads_period. reflexivity.
Qed.

(** Sweep enters the integrals of the loads through the length of the blade axis only. *)
Lemma pad_opp n f l i : pad n 0 (aget (map Ropp f)) (- l) i = - pad n 0 (aget f) l i.
Proof. unfold pad. destruct (Nat.eqb i 0); [ring|]. destruct (Nat.eqb i (n + 1)); [reflexivity|]. apply aget_opp. Qed.
Lemma curv_s_opp r pc ps ps' : (forall i, ps' i = - ps i) -> forall i, curv_s r pc ps' i = curv_s r pc ps i.
Proof. intros H. induction i as [|i IH]; [reflexivity|]. cbn [curv_s]. rewrite IH, !H. f_equal. f_equal. ring. Qed.
Lemma thrustTorque_mirrored b Np Tp :
  thrustTorque (length (b_r b)) Np Tp (aget (b_r b)) (aget (b_precurve b)) (aget (map Ropp (b_presweep b))) (b_precone b) (b_Rhub b) (b_Rtip b) (b_precurveTip b) (- b_presweepTip b) =
  thrustTorque (length (b_r b)) Np Tp (aget (b_r b)) (aget (b_precurve b)) (aget (b_presweep b)) (b_precone b) (b_Rhub b) (b_Rtip b) (b_precurveTip b) (b_presweepTip b).
Proof.
  unfold thrustTorque, defineCurvature. cbv zeta.
  assert (E : curv_s (pad (length (b_r b)) (b_Rhub b) (aget (b_r b)) (b_Rtip b)) (pad (length (b_r b)) 0 (aget (b_precurve b)) (b_precurveTip b))
                (pad (length (b_r b)) 0 (aget (map Ropp (b_presweep b))) (- b_presweepTip b)) =
              curv_s (pad (length (b_r b)) (b_Rhub b) (aget (b_r b)) (b_Rtip b)) (pad (length (b_r b)) 0 (aget (b_precurve b)) (b_precurveTip b))
                (pad (length (b_r b)) 0 (aget (b_presweep b)) (b_presweepTip b))).
  { apply functional_extensionality. apply curv_s_opp. intros i. apply pad_opp. }
  rewrite E. reflexivity.
Qed.
Lemma step_mirrored b : step (mirror_blade b) = step b.
Proof.
  apply functional_extensionality. intros acc. apply functional_extensionality. intros x. unfold step. destruct acc; [|reflexivity]. destruct (fvals _); [|reflexivity]. destruct (fvals _); [|reflexivity].
  unfold tot_add. cbn [mirror_blade b_r b_precurve b_presweep b_precone b_Rhub b_Rtip b_precurveTip b_presweepTip b_B b_nSector]. rewrite thrustTorque_mirrored. reflexivity.
Qed.

Lemma mirrored_one npi bq b U p b' o w : b_inverse b = false -> (1 <= b_nSector b)%nat ->
  evaluate npi bq b [(U, 0, p)] = Ok (b', [o], w) ->
  exists b'' o' w', evaluate npi bq (mirror_blade b) [(U, 0, p)] = Ok (b'', [o'], w') /\ mirror_opt (b_rho b <> 0 /\ U <> 0 /\ b_rotorR b <> 0) o o'.
Proof.
  intros Hi Hn E. rewrite evaluate_forward in E |- * by (cbn; auto; lia). change (b_nSector (mirror_blade b)) with (b_nSector b).
  apply bind_ok in E. destruct E as (lss & EM & E). apply ok_inj in E. apply pair_equal_spec in E. destruct E as [E _]. apply pair_equal_spec in E. destruct E as [_ E].
  injection E as E.
  assert (HL : length lss = b_nSector b) by (rewrite <- (azimuths_length (b_nSector b)); symmetry; eapply Forall2_len; apply mapM_ok; exact EM).
  assert (HS : forall k, (k < b_nSector b)%nat -> section_loads npi bq b U 0 p (INR k * 360 / INR (b_nSector b)) = Ok (nth k lss [])).
  { intros k Hk. pose proof (mapM_ok _ _ _ EM) as F2. assert (NE : nth_error lss k = Some (nth k lss [])) by (apply nth_error_nth'; lia).
    destruct (Forall2_nth_error _ _ _ _ _ F2 NE) as (a & Ea & Eq). unfold azimuths in Ea.
    rewrite nth_error_map in Ea. rewrite (nth_error_nth' (seq 0 (b_nSector b)) O) in Ea by (rewrite seq_length; exact Hk). rewrite seq_nth in Ea by exact Hk. cbn in Ea.
    injection Ea as <-. rewrite degrees_az in Eq. exact Eq. }
  set (h := b_nSector b) in *.
  assert (HT : forall k, (k < h)%nat -> (mir h k < h)%nat) by (intros; apply mir_lt; assumption).
  assert (HR : forall k, (k < h)%nat -> section_loads npi bq (mirror_blade b) U 0 p (INR k * 360 / INR h) = Ok (nth (mir h k) lss [])).
  { intros k Hk. rewrite <- HS by (apply HT; exact Hk). apply mirrored_loads_at. exact Hk. }
  destruct (mapM_total (fun az => section_loads npi bq (mirror_blade b) U 0 p (degrees az)) (azimuths h)) as [lss' EM'].
  { intros az IN. unfold azimuths in IN. apply in_map_iff in IN. destruct IN as (k & <- & IN). apply in_seq in IN. rewrite degrees_az. eexists. apply HR. lia. }
  assert (HL' : length lss' = h) by (rewrite <- (azimuths_length h); symmetry; eapply Forall2_len; apply mapM_ok; exact EM').
  assert (HN : forall k, (k < h)%nat -> nth k lss' [] = nth (mir h k) lss []).
  { intros k Hk. pose proof (mapM_ok _ _ _ EM') as F2. assert (NE : nth_error lss' k = Some (nth k lss' [])) by (apply nth_error_nth'; lia).
    destruct (Forall2_nth_error _ _ _ _ _ F2 NE) as (a & Ea & Eq). unfold azimuths in Ea.
    rewrite nth_error_map in Ea. rewrite (nth_error_nth' (seq 0 h) O) in Ea by (rewrite seq_length; exact Hk). rewrite seq_nth in Ea by exact Hk. cbn in Ea.
    injection Ea as <-. rewrite degrees_az in Eq. rewrite HR in Eq by exact Hk. apply ok_inj in Eq. symmetry. exact Eq. }
  rewrite EM'. cbn [bind]. eexists _, _, _. split; [reflexivity|]. rewrite <- E.
  assert (HA : length lss = length (azimuths h)) by (rewrite azimuths_length; exact HL).
  assert (HA' : length lss' = length (azimuths h)) by (rewrite azimuths_length; exact HL').
  rewrite step_mirrored.
  destruct (fold_left (step b) (combine (azimuths h) lss) (Some tot0)) as [t|] eqn:F1;
  destruct (fold_left (step b) (combine (azimuths h) lss') (Some tot0)) as [t'|] eqn:F2; cbn [option_map mirror_opt].
  - pose proof (fold_sum b _ _ _ F1) as S1. pose proof (fold_sum b _ _ _ F2) as S2. cbv zeta in S1, S2. unfold azimuths in S1, S2. fold h in S1, S2.
    rewrite !isum_total in S1 by exact HL. rewrite !isum_total in S2 by exact HL'. cbn [tot0 t_T t_Y t_Z t_Q t_My t_Mz t_Mb] in S1, S2.
    assert (SAME : forall f : nat -> R, forall f' : nat -> R, (forall k, (k < h)%nat -> f' k = f (mir h k)) -> total h f' = total h f).
    { intros f f' H. rewrite (total_ext _ f' (fun k => f (mir h k)) H). apply total_mir. }
    assert (OPP : forall f : nat -> R, forall f' : nat -> R, (forall k, (k < h)%nat -> f' k = - f (mir h k)) -> total h f' = - total h f).
    { intros f f' H. rewrite (total_ext _ f' (fun k => - f (mir h k)) H). rewrite (total_opp _ (fun k => f (mir h k))). f_equal. apply total_mir. }
    assert (TT : t_T t' = t_T t /\ t_Q t' = t_Q t /\ t_Mb t' = t_Mb t /\ t_My t' = t_My t /\ t_Mz t' = - t_Mz t).
    { destruct S1 as (P1 & P2 & P3 & P4 & P5 & P6 & P7), S2 as (Q1 & Q2 & Q3 & Q4 & Q5 & Q6 & Q7).
      rewrite P1, P4, P5, P6, P7, Q1, Q4, Q5, Q6, Q7.
      repeat match goal with |- _ /\ _ => split end.
      1,2,3: f_equal; f_equal; apply SAME; intros k Hk; rewrite (HN k Hk); reflexivity.
      - f_equal. f_equal. apply SAME. intros k Hk. destruct (mir_trig h k Hk) as [CA _]. cbv beta. rewrite CA, (HN k Hk). reflexivity.
      - rewrite Ropp_plus_distr, Ropp_0, Ropp_mult_distr_r. f_equal. f_equal. apply OPP. intros k Hk. destruct (mir_trig h k Hk) as [_ SA]. cbv beta. rewrite SA, (HN k Hk). ring. }
    destruct TT as (T1 & T2 & T3 & T4 & T5). unfold mirror_out, mirror_coefficients, finish.
    cbn [y_tot y_P y_CP y_CT y_CY y_CZ y_CQ y_CMy y_CMz y_CMb mirror_blade b_rho b_rotorR]. rewrite T1, T2, T3, T4, T5.
    split; [repeat split|]. intros _. unfold Rdiv. repeat split; ring.
  - exfalso. assert (G : exists t, fold_left (step b) (combine (azimuths h) lss') (Some tot0) = Some t).
    { apply fold_good; [exact HA'|]. intros k Hk. rewrite HL' in Hk. rewrite (HN k Hk).
      apply (proj1 (fold_good b _ lss HA) (ex_intro _ t F1)). rewrite HL. apply HT. exact Hk. }
    destruct G as [t' G]. rewrite G in F2. discriminate.
  - exfalso. assert (G : exists t, fold_left (step b) (combine (azimuths h) lss) (Some tot0) = Some t).
    { apply fold_good; [exact HA|]. intros k Hk. rewrite HL in Hk. rewrite <- (mir_mir h k Hk). rewrite <- (HN _ (HT k Hk)).
      apply (proj1 (fold_good b _ lss' HA') (ex_intro _ t' F2)). rewrite HL'. apply HT. exact Hk. }
    destruct G as [t G]. rewrite G in F1. discriminate.
  - exact I.
Qed.

(** Any list of conditions, for the parked ones among them. *)
Lemma mirrored_evaluate npi bq b conds b1 outs w b2 outs' w' : b_inverse b = false -> (1 <= b_nSector b)%nat ->
  evaluate npi bq b conds = Ok (b1, outs, w) -> evaluate npi bq (mirror_blade b) conds = Ok (b2, outs', w') ->
  forall i U p o o', nth_error conds i = Some (U, 0, p) -> nth_error outs i = Some o -> nth_error outs' i = Some o' ->
    mirror_opt (b_rho b <> 0 /\ U <> 0 /\ b_rotorR b <> 0) o o'.
Proof.
  intros Hi Hn E E' i U p o o' Ec Eo Eo'.
  destruct (outs_pointwise npi bq b conds _ _ _ i _ _ Hi Hn E Ec Eo) as (b3 & w3 & E1).
  destruct (outs_pointwise npi bq (mirror_blade b) conds _ _ _ i _ _ Hi Hn E' Ec Eo') as (b4 & w4 & E2).
  destruct (mirrored_one npi bq b U p b3 o w3 Hi Hn E1) as (b5 & o5 & w5 & E3 & H). rewrite E2 in E3. apply ok_inj in E3.
  apply pair_equal_spec in E3. destruct E3 as [E3 _]. apply pair_equal_spec in E3. destruct E3 as [_ E3]. injection E3 as ->. exact H.
Qed.
(** Parked conditions only: the mirrored call succeeds as well. *)
Lemma mirrored_succeeds npi bq b conds b1 outs w : b_inverse b = false -> (1 <= b_nSector b)%nat -> (forall U Om p, In (U, Om, p) conds -> Om = 0) ->
  evaluate npi bq b conds = Ok (b1, outs, w) -> exists b2 outs' w', evaluate npi bq (mirror_blade b) conds = Ok (b2, outs', w') /\ length outs' = length outs.
Proof.
  intros Hi Hn H0 E. destruct conds as [|c0 conds0] eqn:EC; [unfold evaluate in E; cbn in E; discriminate|]. rewrite <- EC in *. assert (Hc : conds <> []) by (rewrite EC; discriminate). clear EC.
  pose proof (evaluate_pointwise npi bq b conds Hi Hn Hc) as P. rewrite E in P.
  pose proof (evaluate_pointwise npi bq (mirror_blade b) conds Hi Hn Hc) as Q.
  destruct (evaluate npi bq (mirror_blade b) conds) as [[[b'' outs'] w']|e].
  - exists b'', outs', w'. split; [reflexivity|]. rewrite <- (Forall2_len _ _ _ P). symmetry. apply (Forall2_len _ _ _ Q).
  - exfalso. destruct Q as (((U & Om) & p) & IN & ER). destruct (In_nth_error _ _ IN) as [i Ec]. pose proof (H0 _ _ _ IN) as ->.
    assert (HL : length outs = length conds) by (symmetry; apply (Forall2_len _ _ _ P)).
    destruct (nth_error outs i) as [o|] eqn:Eo; [|apply nth_error_None in Eo; assert (nth_error conds i <> None) by (rewrite Ec; discriminate); rewrite nth_error_Some in *; lia].
    destruct (Forall2_nth_error _ _ _ _ _ P Eo) as (c & Ec1 & b3 & w1 & E1). rewrite Ec in Ec1. injection Ec1 as <-.
    destruct (mirrored_one npi bq b U p b3 o w1 Hi Hn E1) as (b4 & o3 & w3 & E3 & _). rewrite ER in E3. discriminate.
Qed.
