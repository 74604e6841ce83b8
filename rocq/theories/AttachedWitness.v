(** A section whose lift peaks and falls, with two inflow angles (C134). *)
From Coquelicot Require Import Coquelicot.
From Coq Require Import Reals Bool Arith List Lra Lia Psatz.
From Verif Require Import Prelim Num CSystemSpec Bem BemGeomSpec BemGeomProofs IndSpec IndProofs Blade BladeSpec FlProofs StationProofs StationWitness StationExist StationLoads BladeProofs
  SectorWitness ConstructProofs TwistWitness EnoughProofs ParkedProofs InverseForward BetzStation DragStation DragWitness AttachedSpec AttachedLoss AttachedProofs.
Import ListNotations.
Open Scope R_scope.

(** The angle with tangent 3/4, below 45 degrees. *)
Definition peak : R := atan (3 / 4).
Lemma peak_facts : 55 / 100 < peak < PI / 4 /\ sin peak = 3 / 5 /\ cos peak = 4 / 5.
Proof.
  pose proof PI_RGT_0 as HP. pose proof (atan_bound (3 / 4)) as AB. fold peak in AB.
  assert (P0 : 0 < peak) by (unfold peak; rewrite <- atan_0; apply atan_increasing; lra).
  assert (P1 : peak < PI / 4) by (rewrite <- atan_1; apply atan_increasing; lra).
  assert (C : 0 < cos peak) by (apply cos_gt_0; lra). assert (S : 0 < sin peak) by (apply sin_gt_0; lra).
  assert (T : sin peak = 3 / 4 * cos peak). { assert (E : tan peak = 3 / 4) by (unfold peak; apply atan_right_inv || apply tan_atan). unfold tan in E. apply (f_equal (fun x => x * cos peak)) in E. field_simplify in E; lra. }
  pose proof (sin2_cos2 peak) as Q. unfold Rsqr in Q. assert (CE : cos peak = 4 / 5) by nra. assert (SE : sin peak = 3 / 5) by lra.
  split; [|split; assumption]. split; [|exact P1]. apply Rnot_le_lt. intros L. pose proof (sin_lt_x peak P0). lra.
Qed.

(** Lift like a tent around that angle, reaching zero at 45 degrees; no drag. *)
Definition tent (x : R) : R := Rmax 0 (1 - Rabs (x - peak) / (PI / 4 - peak)).
Lemma tent_peak : tent peak = 1.
Proof. unfold tent. replace (peak - peak) with 0 by ring. rewrite Rabs_R0. unfold Rdiv. rewrite Rmult_0_l, Rminus_0_r. apply Rmax_right. lra. Qed.
Lemma tent_out x : PI / 4 - peak <= Rabs (x - peak) -> tent x = 0.
Proof.
  intros H. destruct peak_facts as ((_ & P) & _). unfold tent. apply Rmax_left.
  assert (1 <= Rabs (x - peak) / (PI / 4 - peak)); [|lra]. apply (Rmult_le_reg_r (PI / 4 - peak)); [lra|]. unfold Rdiv. rewrite Rmult_assoc, Rinv_l by lra. lra.
Qed.
Lemma tent_cont x : continuous tent x.
Proof.
  apply continuity_pt_filterlim. unfold tent. apply continuity_pt_ext with (fun x => (1 - Rabs (x - peak) / (PI / 4 - peak) + Rabs (1 - Rabs (x - peak) / (PI / 4 - peak))) / 2).
  { intros y. set (z := 1 - _). unfold Rmax. destruct (Rle_dec 0 z) as [A|A]; [rewrite Rabs_pos_eq by lra; field|rewrite Rabs_left by (apply Rnot_le_lt; exact A); field]. }
  assert (I : continuity_pt (fun x => Rabs (x - peak)) x).
  { apply (continuity_pt_comp (fun x => x - peak) Rabs); [apply continuity_pt_minus; [apply derivable_continuous_pt, derivable_pt_id|apply continuity_pt_const; intros a b; reflexivity]|apply Rcontinuity_abs]. }
  assert (J : continuity_pt (fun x => 1 - Rabs (x - peak) / (PI / 4 - peak)) x).
  { apply continuity_pt_minus; [apply continuity_pt_const; intros a b; reflexivity|]. unfold Rdiv. apply continuity_pt_mult; [exact I|apply continuity_pt_const; intros a b; reflexivity]. }
  unfold Rdiv at 3. apply continuity_pt_mult; [|apply continuity_pt_const; intros a b; reflexivity].
  apply continuity_pt_plus; [exact J|]. apply (continuity_pt_comp (fun x => 1 - Rabs (x - peak) / (PI / 4 - peak)) Rabs); [exact J|apply Rcontinuity_abs].
Qed.

(** A section with lift 3 pi / 5 times a function of the angle and no drag. *)
Section Lift.
Variable f : R -> R.
Definition stall_cl (al _ : R) : R := 3 * PI / 5 * f al.
Definition stall_af : airfoil fl := fun al _ => match fval al with Some x => (Fin (stall_cl x 0), Fin 0) | None => (NaN, NaN) end.
Lemma stall_computes : computes stall_af stall_cl (fun _ _ => 0).
Proof. intros al' Re' al Re H _. unfold stall_af. unfold rep in H. rewrite H. split; apply rep_Fin. Qed.

Definition stall_sect : sect fl := mkSect (Fin 1) (Fin 1) (Fin 0) stall_af (Fin 1) (Fin 1).

Lemma ss_solidity : solidity 2 1 1 = / PI.
Proof. unfold solidity. cbn [INR]. pose proof PI_RGT_0. field. lra. Qed.
Lemma ss_inside phi : 0 < phi < PI -> inside 2 1 (1 / 2) 3 phi.
Proof. intros H. unfold inside. repeat split; try lra; lia. Qed.
Lemma ss_loading phi : 0 < phi < PI -> loading off 2 1 1 (1 / 2) 3 phi (stall_cl phi 0) 0 = 3 / 20 * f phi * cos phi / sin phi ^ 2.
Proof.
  intros H. assert (0 < sin phi) by (apply sin_gt_0; lra). pose proof PI_RGT_0. unfold loading, coef_n, lossF, stall_cl. cbn [useCd tipLoss hubLoss off]. rewrite ss_solidity. field. lra.
Qed.
Lemma ss_ind phi : 0 < phi < PI -> 0 < cos phi -> 3 / 20 * f phi * cos phi / sin phi ^ 2 <= 2 / 3 -> - 1 < 3 / 20 * f phi * cos phi / sin phi ^ 2 ->
  let k := 3 / 20 * f phi * cos phi / sin phi ^ 2 in
  inductionFactors off 2 1 1 (1 / 2) 3 phi (stall_cl phi 0) 0 1 1 = (sin phi * (1 + k) - cos phi, k / (1 + k), 0).
Proof.
  intros H C K1 K2 k. rewrite ind_pos by (apply ss_inside; exact H). rewrite ss_loading by exact H. fold k. rewrite axial_low by exact K1.
  change (wakerotation off) with false. cbv iota. repeat apply (f_equal2 pair); [|reflexivity|reflexivity]. fold k in K2. clearbody k. field. lra.
Qed.
Lemma ss_rep phi : 0 < phi < PI -> 0 < cos phi -> 3 / 20 * f phi * cos phi / sin phi ^ 2 <= 2 / 3 -> - 1 < 3 / 20 * f phi * cos phi / sin phi ^ 2 ->
  rep (errf w_rotor stall_sect 0 (Fin phi)) (sin phi * (1 + 3 / 20 * f phi * cos phi / sin phi ^ 2) - cos phi).
Proof.
  intros H C K1 K2.
  pose proof (residual_rep w_rotor stall_sect 1 1 0 1 1 (1 / 2) 3 1 1 0 stall_cl (fun _ _ => 0) phi (rep_Fin _) (rep_Fin _) (rep_Fin _) (rep_Fin _) (rep_Fin _)
    (rep_Fin _) (rep_Fin _) (rep_Fin _) (rep_Fin _) (rep_Fin _) stall_computes ltac:(lra) ltac:(lra) ltac:(lra) (ss_inside phi H) ltac:(lra)) as Q. cbv zeta in Q.
  replace (phi - (0 + 0)) with phi in Q by ring. change (stall_cl phi (1 * sqrt (1 ^ 2 + 1 ^ 2) * 1 / 1)) with (stall_cl phi 0) in Q.
  change (rt_opts w_rotor) with off in Q. change (rt_B w_rotor) with 2%nat in Q. rewrite ss_loading in Q by exact H. rewrite ss_ind in Q by assumption. exact (Q K2).
Qed.

(** The normal load at an angle: lift times dynamic pressure. *)
Lemma ss_loads v : 0 < v < PI -> 0 < cos v -> 3 / 20 * f v * cos v / sin v ^ 2 <= 2 / 3 -> - 1 / 2 <= 3 / 20 * f v * cos v / sin v ^ 2 ->
  exists l w, bind (loads w_rotor (Fin v) true stall_sect) (nan_guard true) = Ok l /\ rep (o_Np l) ((stall_cl v 0 * cos v + 0 * sin v) * (1 / 2 * 1 * (w * w)) * 1) /\ 0 < w.
Proof.
  intros Hv C K1 K2. set (k := 3 / 20 * f v * cos v / sin v ^ 2) in *. pose proof (ss_ind v Hv C K1 ltac:(fold k; lra)) as EI. cbv zeta in EI. fold k in EI.
  pose proof (ss_loading v Hv) as EL. fold k in EL.
  destruct (ind_transfer_rep off 2 1 1 (1 / 2) 3 v (stall_cl v 0) 0 1 1 _ _ _ _ _ _ _ _ _ _ _ _ (rep_Fin _) (rep_Fin _) (rep_Fin _) (rep_Fin _) (rep_Fin _)
    (rep_Fin (stall_cl v 0)) (rep_Fin 0) (rep_Fin _) (rep_Fin _) (ss_inside v Hv) ltac:(lra) ltac:(lra) ltac:(lra) ltac:(lra) ltac:(discriminate) EI) as (fz & a & ap & E & _ & Qa & Qap).
  unfold loads. cbn [stall_sect s_Vx s_Vy neq ofR fl_arith].
  replace (feq (Fin 1) (Fin 0)) with false by (symmetry; cbn; apply reqb_false; lra). cbn [negb andb].
  assert (EP : runBEM w_rotor stall_sect (Fin v) = Ok (fz, a, ap, Fin (stall_cl v 0), Fin 0)).
  { unfold runBEM. change (rt_iterRe w_rotor) with 1%nat. cbv iota. f_equal. cbn [bem_loop]. unfold bem_pass.
    cbn [w_rotor stall_sect s_Vx s_Vy s_theta s_chord s_r s_af rt_pitch rt_rho rt_mu rt_opts rt_B rt_Rhub rt_Rtip ofR fl_arith].
    pose proof (rel_alpha (Fin v) (Fin 0) (Fin 0) (Fin 1) (Fin 1) (Fin 0) (Fin 1) (Fin 0) (Fin 1) (Fin 1)) as HA.
    destruct (relativeWind _ _ _ _ _ _ _ _ _ _) as ((al & W) & Re). cbn [fst] in HA.
    assert (QA : rep al (v - (0 + 0))) by (rewrite HA; cbn [nsub nadd fl_arith]; reps). unfold stall_af. unfold rep in QA. rewrite QA. replace (v - (0 + 0)) with v by ring. rewrite E. reflexivity. }
  fold stall_sect. rewrite EP. cbn [bind].
  pose proof (rel_transfer v (k / (1 + k)) 0 1 1 0 1 0 1 0 _ _ _ _ _ (Fin 0) (Fin 1) (Fin 0) (Fin 1) (Fin 1)
     (rep_Fin v) Qa Qap (rep_Fin 1) (rep_Fin 1) ltac:(lra) ltac:(pose proof (sin_gt_0 v); lra)) as QW.
  cbn [stall_sect s_Vx s_Vy s_chord s_theta w_rotor rt_pitch rt_rho rt_mu].
  destruct (relativeWind (Fin v) a ap (Fin 1) (Fin 1) (Fin 0) (Fin 1) (Fin 0) (Fin 1) (Fin 1)) as ((al & W) & Re). cbn [fst snd] in QW.
  match type of QW with rep _ ?x => set (w := x) in * end.
  assert (Hw : 0 < w).
  { unfold w, relativeWind. cbn [fst snd]. cbn [nmul ndiv nsub nadd nabs nsqrt nlt ofR R_arith].
    assert (A1 : Rabs (k / (1 + k)) <= 10).
    { assert (I1 : 0 < / (1 + k)) by (apply Rinv_0_lt_compat; lra). assert (I2 : / (1 + k) <= 2) by (replace 2 with (/ (1 / 2)) by field; apply Rinv_le_contravar; lra).
      replace (k / (1 + k)) with (1 - / (1 + k)) by (field; lra). apply Rabs_le. lra. }
    replace (rltb 10 (Rabs (k / (1 + k)))) with false by (symmetry; apply rltb_false; lra).
    replace (rltb 10 (Rabs 0)) with false by (symmetry; apply rltb_false; rewrite Rabs_R0; lra).
    apply sqrt_lt_R0. pose proof (Rle_0_sqr (1 * (1 - k / (1 + k)))) as S1. unfold Rsqr in S1. lra. }
  cbn [nmul nsub nadd ncos nsin ofR fl_arith].
  match goal with |- context [mkLoad a ap ?n ?t' _ _ _ _ _ _ _ _] => set (Np := n); set (Tp := t') end.
  assert (QN : rep Np ((stall_cl v 0 * cos v + 0 * sin v) * (1 / 2 * 1 * (w * w)) * 1)) by (unfold Np; reps).
  cbn [bind]. unfold nan_guard. cbn [o_Np]. change (isnan _) with (isnan Np). rewrite (rep_isnan _ _ QN).
  eexists. exists w. split; [reflexivity|]. cbn [o_Np]. split; [exact QN|exact Hw].
Qed.

End Lift.

(** Both ends of the bracket, and the two angles. *)
Lemma ss_out phi : 0 < phi < PI -> 0 < cos phi -> PI / 4 - peak <= Rabs (phi - peak) -> rep (errf w_rotor (stall_sect tent) 0 (Fin phi)) (sin phi - cos phi).
Proof.
  intros H C O. pose proof (ss_rep tent phi H C) as Q. rewrite (tent_out phi O) in Q. replace (3 / 20 * 0 * cos phi / sin phi ^ 2) with 0 in Q by (unfold Rdiv; ring).
  replace (sin phi - cos phi) with (sin phi * (1 + 0) - cos phi) by ring. apply Q; lra.
Qed.
Lemma ss_bracket npi : 3 < npi < PI -> documented_bracket npi (errf w_rotor (stall_sect tent) 0) (1 / 1000000) (npi / 2).
Proof.
  intros Hn. destruct peak_facts as ((P1 & P2) & _). pose proof PI_4 as P4. apply standard.
  assert (C : 0 < cos (1 / 1000000)) by (apply cos_gt_0; lra). assert (C2 : 0 < cos (npi / 2)) by (apply cos_gt_0; lra).
  assert (R1 : rep (errf w_rotor (stall_sect tent) 0 (Fin (1 / 1000000))) (sin (1 / 1000000) - cos (1 / 1000000))).
  { apply ss_out; [lra|exact C|]. rewrite Rabs_left by lra. lra. }
  assert (N : sin (1 / 1000000) - cos (1 / 1000000) < 0).
  { rewrite <- (cos_shift (1 / 1000000)). assert (cos (PI / 2 - 1 / 1000000) < cos (1 / 1000000)) by (apply cos_decreasing_1; lra). lra. }
  assert (R2 : rep (errf w_rotor (stall_sect tent) 0 (Fin (npi / 2))) (sin (npi / 2) - cos (npi / 2))).
  { apply ss_out; [lra|exact C2|]. rewrite Rabs_pos_eq by lra. lra. }
  assert (N2 : 0 < sin (npi / 2) - cos (npi / 2)).
  { rewrite <- (cos_shift (npi / 2)). assert (cos (npi / 2) < cos (PI / 2 - npi / 2)) by (apply cos_decreasing_1; lra). lra. }
  apply rep_inv in R1, R2. destruct R1 as [->|[_ E]]; [|lra]. destruct R2 as [->|[_ E]]; [|lra].
  unfold same_strict_sign. rewrite !pos_Fin, !neg_Fin. lra.
Qed.
Lemma ss_zero_peak : rep (errf w_rotor (stall_sect tent) 0 (Fin peak)) 0.
Proof.
  destruct peak_facts as ((P1 & P2) & S & C). pose proof PI_RGT_0. pose proof (ss_rep tent peak ltac:(lra) ltac:(lra)) as Q. rewrite tent_peak, S, C in Q.
  replace 0 with (3 / 5 * (1 + 3 / 20 * 1 * (4 / 5) / (3 / 5) ^ 2) - 4 / 5) by field. apply Q; lra.
Qed.
Lemma ss_zero_45 : rep (errf w_rotor (stall_sect tent) 0 (Fin (PI / 4))) 0.
Proof.
  destruct peak_facts as ((P1 & P2) & _). pose proof PI_RGT_0. replace 0 with (sin (PI / 4) - cos (PI / 4)) by (rewrite sin_PI4, cos_PI4; ring).
  apply ss_out; [lra|apply cos_gt_0; lra|]. rewrite Rabs_pos_eq; lra.
Qed.

Lemma probe_solves x : solves (probe x).
Proof. split; [apply probe_inside|apply probe_zeros]. Qed.

Lemma ss_probe npi x : 3 < npi < PI -> rep (errf w_rotor (stall_sect tent) 0 (Fin x)) 0 -> 1 / 1000000 <= x <= npi / 2 ->
  probe x (errf w_rotor (stall_sect tent) 0) (Fin (1 / 1000000)) (Fin (npi / 2)) = Ok (Fin x) /\
  solve_station npi (probe x) w_rotor true (stall_sect tent) = bind (loads w_rotor (Fin x) true (stall_sect tent)) (nan_guard true).
Proof.
  intros Hn Z Hx. pose proof (probe_finds x _ _ _ Z Hx) as E. split; [exact E|]. unfold solve_station. change (rt_iterRe w_rotor) with 1%nat. cbv iota.
  rewrite (solve_same _ _ _ _ (ss_bracket npi Hn) E). reflexivity.
Qed.

(** Two root finders, two loads: lift at the peak, none at 45 degrees. *)
Lemma two_loads npi : 3 < npi < PI -> exists l l' N,
  probe peak (errf w_rotor (stall_sect tent) 0) (Fin (1 / 1000000)) (Fin (npi / 2)) = Ok (Fin peak) /\ probe (PI / 4) (errf w_rotor (stall_sect tent) 0) (Fin (1 / 1000000)) (Fin (npi / 2)) = Ok (Fin (PI / 4)) /\
  solve_station npi (probe peak) w_rotor true (stall_sect tent) = Ok l /\ solve_station npi (probe (PI / 4)) w_rotor true (stall_sect tent) = Ok l' /\
  rep (o_Np l) N /\ 0 < N /\ rep (o_Np l') 0.
Proof.
  intros Hn. destruct peak_facts as ((P1 & P2) & S & C). pose proof PI_RGT_0 as HP. pose proof PI_4 as P4.
  destruct (ss_probe npi peak Hn ss_zero_peak ltac:(lra)) as [F1 G1]. destruct (ss_probe npi (PI / 4) Hn ss_zero_45 ltac:(lra)) as [F2 G2].
  assert (T2 : tent (PI / 4) = 0) by (apply tent_out; rewrite Rabs_pos_eq; lra).
  destruct (ss_loads tent peak) as (l & w & E1 & N1 & W1); try lra; try (rewrite tent_peak, S, C; lra).
  destruct (ss_loads tent (PI / 4)) as (l' & w' & E2 & N2 & W2); [lra|apply cos_gt_0; lra|rewrite T2; unfold Rdiv; lra|rewrite T2; unfold Rdiv; lra|].
  exists l, l'. eexists. split; [exact F1|]. split; [exact F2|]. rewrite G1, G2. split; [exact E1|]. split; [exact E2|]. split; [exact N1|]. split.
  - unfold stall_cl. rewrite tent_peak, S, C. assert (0 < w * w) by (apply Rmult_lt_0_compat; lra). assert (0 < PI * (w * w)) by (apply Rmult_lt_0_compat; lra). lra.
  - unfold stall_cl in N2. rewrite T2 in N2. replace ((3 * PI / 5 * 0 * cos (PI / 4) + 0 * sin (PI / 4)) * (1 / 2 * 1 * (w' * w')) * 1) with 0 in N2 by ring. exact N2.
Qed.

Lemma same_loads_false : ~ same_loads.
Proof.
  intros H. assert (Hn : exists npi, 3 < npi < PI) by (exists ((3 + PI) / 2); pose proof PI2_3_2; lra). destruct Hn as (npi & Hn). destruct (two_loads npi Hn) as (l & l' & N & F1 & F2 & E1 & E2 & N1 & P & N2).
  pose proof (H npi _ _ w_rotor (stall_sect tent) _ _ l l' Hn (probe_solves peak) (probe_solves (PI / 4)) eq_refl (ss_bracket npi Hn) F1 F2 E1 E2) as E. subst l'.
  pose proof (rep_fun _ _ _ N1 N2). lra.
Qed.

Lemma probe_tame x : only_value_error (probe x).
Proof. intros f a b e E. destruct (probe_cases x f a b) as [H|(H & _)]; rewrite H in E; congruence. Qed.

(** The same on a constructed rotor: its first station. *)
Lemma rotor_first npi x l : solve_station npi (probe x) w_rotor true (stall_sect tent) = Ok l ->
  exists b' ls, distributedAeroLoads npi (probe x) (w_blade (stall_af tent)) 1 (30 / PI) 0 0 = Ok (b', ls) /\ nth_error ls 0 = Some l.
Proof.
  intros E. pose proof PI_RGT_0 as HP. assert (HO : 30 / PI <> 0) by (apply Rgt_not_eq, Rdiv_lt_0_compat; lra).
  destruct (complete_returns npi (probe x) (probe_tame x) _ _ (w_construct (stall_af tent)) I I ltac:(cbn; lia) ltac:(cbn; lia)) as (H & _).
  destruct (H 1 (30 / PI) 0 0 HO) as (b' & ls & D & L). exists b', ls. split; [exact D|].
  destruct (nth_error ls 0) as [l0|] eqn:E0; [|apply nth_error_None in E0; rewrite L in E0; cbn in E0; lia].
  destruct (station_of _ _ _ _ _ _ _ _ _ _ _ D E0) as (_ & t & S & _). unfold station_i in S.
  replace (reqb (30 / PI) 0) with false in S by (symmetry; apply reqb_false; exact HO).
  assert (WD : wind (w_blade (stall_af tent)) 1 (30 / PI) (radians 0) = wind d_blade 1 (30 / PI) (radians 0)) by reflexivity.
  destruct (d_wind (radians 0) 0 ltac:(lia)) as [V1 V2]. rewrite WD, V1, V2 in S.
  cbn [w_blade b_r b_chord b_af b_theta b_inverse pyget nth_error bind negb] in S.
  replace (INR 0 + 1) with 1 in S by (cbn; ring).
  assert (RT : rotor_of (w_blade (stall_af tent)) (radians 0) = w_rotor) by (unfold rotor_of; rewrite radians_0; reflexivity).
  rewrite RT in S. fold (stall_sect tent) in S. rewrite E in S. cbn [bind] in S. apply ok_inj in S. apply pair_equal_spec in S. destruct S as [_ ->]. reflexivity.
Qed.

(** Lift that rises to the peak and stays there. *)
Definition ramp (x : R) : R := Rmax 0 (1 - Rmax 0 (peak - x) / (PI / 4 - peak)).
Lemma ramp_rising : rising (fun al => stall_cl ramp al (1 * sqrt (1 ^ 2 + 1 ^ 2) * 1 / 1)) (- (0 + 0)) (PI / 2 - (0 + 0)).
Proof.
  intros x y _ L _. destruct peak_facts as ((_ & P) & _). pose proof PI_RGT_0. unfold stall_cl. apply Rmult_le_compat_l; [lra|]. unfold ramp. apply Rle_max_compat_l.
  assert (I : 0 < / (PI / 4 - peak)) by (apply Rinv_0_lt_compat; lra).
  assert (M : Rmax 0 (peak - y) <= Rmax 0 (peak - x)) by (apply Rle_max_compat_l; lra). pose proof (Rmult_le_compat_r _ _ _ (Rlt_le _ _ I) M). unfold Rdiv. lra.
Qed.
Lemma ramp_high x : peak <= x -> ramp x = 1.
Proof. intros H. unfold ramp. rewrite (Rmax_left 0 (peak - x)) by lra. unfold Rdiv. rewrite Rmult_0_l, Rminus_0_r. apply Rmax_right. lra. Qed.
Lemma ramp_low : ramp (1 / 1000000) = 0.
Proof.
  destruct peak_facts as ((P1 & P2) & _). pose proof PI_4. unfold ramp. rewrite (Rmax_right 0 (peak - 1 / 1000000)) by lra. apply Rmax_left.
  assert (1 <= (peak - 1 / 1000000) / (PI / 4 - peak)); [|lra]. apply (Rmult_le_reg_r (PI / 4 - peak)); [lra|]. unfold Rdiv. rewrite (Rmult_assoc (peak - _)), Rinv_l by lra. lra.
Qed.
Lemma ramp_bracket npi : 3 < npi < PI -> documented_bracket npi (errf w_rotor (stall_sect ramp) 0) (1 / 1000000) (npi / 2).
Proof.
  intros Hn. destruct peak_facts as ((P1 & P2) & _). pose proof PI_4 as P4. apply standard.
  assert (C : 0 < cos (1 / 1000000)) by (apply cos_gt_0; lra). assert (C2 : 0 < cos (npi / 2)) by (apply cos_gt_0; lra).
  pose proof (ss_rep ramp (1 / 1000000) ltac:(lra) C) as R1. rewrite ramp_low in R1.
  replace (3 / 20 * 0 * cos (1 / 1000000) / sin (1 / 1000000) ^ 2) with 0 in R1 by (unfold Rdiv; ring). specialize (R1 ltac:(lra) ltac:(lra)).
  assert (N : sin (1 / 1000000) - cos (1 / 1000000) < 0).
  { rewrite <- (cos_shift (1 / 1000000)). assert (cos (PI / 2 - 1 / 1000000) < cos (1 / 1000000)) by (apply cos_decreasing_1; lra). lra. }
  assert (N2 : 0 < sin (npi / 2) - cos (npi / 2)).
  { rewrite <- (cos_shift (npi / 2)). assert (cos (npi / 2) < cos (PI / 2 - npi / 2)) by (apply cos_decreasing_1; lra). lra. }
  pose proof (ss_rep ramp (npi / 2) ltac:(lra) C2) as R2. rewrite ramp_high in R2 by lra. set (S := sin (npi / 2)) in *. set (c := cos (npi / 2)) in *.
  assert (I : 0 < / S ^ 2) by (apply Rinv_0_lt_compat, pow_lt; lra).
  assert (K0 : 0 < 3 / 20 * 1 * c / S ^ 2) by (unfold Rdiv at 1; apply Rmult_lt_0_compat; lra).
  assert (K1 : 3 / 20 * 1 * c / S ^ 2 <= 2 / 3).
  { apply (Rmult_le_reg_r (S ^ 2)); [apply pow_lt; lra|]. unfold Rdiv at 1. rewrite Rmult_assoc, Rinv_l by (apply Rgt_not_eq, pow_lt; lra).
    assert (S ^ 2 + c ^ 2 = 1) by (pose proof (sin2_cos2 (npi / 2)) as Q; unfold Rsqr in Q; fold S c in Q; nra). assert (1 / 2 < S ^ 2) by nra. assert (c <= 1) by (apply COS_bound). lra. }
  specialize (R2 K1 ltac:(lra)). assert (0 < S * (3 / 20 * 1 * c / S ^ 2)) by (apply Rmult_lt_0_compat; lra).
  apply rep_inv in R1, R2. destruct R1 as [->|[_ E]]; [|lra]. destruct R2 as [->|[_ E]]; [|lra].
  unfold same_strict_sign. rewrite !pos_Fin, !neg_Fin. lra.
Qed.
Lemma ramp_load npi : 3 < npi < PI -> exists l N, probe peak (errf w_rotor (stall_sect ramp) 0) (Fin (1 / 1000000)) (Fin (npi / 2)) = Ok (Fin peak) /\
  solve_station npi (probe peak) w_rotor true (stall_sect ramp) = Ok l /\ rep (o_Np l) N /\ 0 < N.
Proof.
  intros Hn. destruct peak_facts as ((P1 & P2) & S & C). pose proof PI_RGT_0 as HP. pose proof PI_4 as P4. assert (R1 : ramp peak = 1) by (apply ramp_high; lra).
  assert (Z : rep (errf w_rotor (stall_sect ramp) 0 (Fin peak)) 0).
  { pose proof (ss_rep ramp peak ltac:(lra) ltac:(lra)) as Q. rewrite R1, S, C in Q. replace 0 with (3 / 5 * (1 + 3 / 20 * 1 * (4 / 5) / (3 / 5) ^ 2) - 4 / 5) by field. apply Q; lra. }
  assert (BX : 1 / 1000000 <= peak <= npi / 2) by lra. pose proof (probe_finds peak _ _ _ Z BX) as F.
  destruct (ss_loads ramp peak) as (l & w & E1 & N1 & W1); try rewrite R1; try rewrite S; try rewrite C; try lra.
  exists l. eexists. split; [exact F|]. split.
  { unfold solve_station. change (rt_iterRe w_rotor) with 1%nat. cbv iota. rewrite (solve_same _ _ _ _ (ramp_bracket npi Hn) F). exact E1. }
  split; [exact N1|]. unfold stall_cl. rewrite R1, S, C. assert (0 < w * w) by (apply Rmult_lt_0_compat; lra). assert (0 < PI * (w * w)) by (apply Rmult_lt_0_compat; lra). lra.
Qed.

(** The same shape of lift with tip and hub loss and wake rotation, scaled so that the same angle is the zero. *)
Definition full : bemopts := mkOpts false true true true.
Definition full_rotor : rotor fl := mkRotor (Fin (1 / 2)) (Fin 3) 2 (Fin 1) (Fin 1) full 1 (Fin 0).
Definition lossy (phi : R) : R := lossF full 2 1 (1 / 2) 3 phi.
Definition full_lift (x : R) : R := 4 / 7 * lossy peak * ramp x.
Definition full_k (phi : R) : R := 3 / 20 * full_lift phi * cos phi / (lossy phi * sin phi ^ 2).

Lemma lossy_unit phi : 0 < phi < PI -> 0 < lossy phi <= 1.
Proof. intros H. apply lossF_unit, ss_inside, H. Qed.
Lemma full_loading phi : 0 < phi < PI -> loading full 2 1 1 (1 / 2) 3 phi (stall_cl full_lift phi 0) 0 = full_k phi.
Proof.
  intros H. assert (0 < sin phi) by (apply sin_gt_0; lra). pose proof PI_RGT_0. pose proof (lossy_unit phi H). unfold loading, coef_n, stall_cl, full_k. fold (lossy phi). cbn [useCd full]. rewrite ss_solidity.
  set (u := full_lift phi). field. lra.
Qed.
Lemma full_rep phi : 0 < phi < PI -> 0 < cos phi -> full_k phi <= 2 / 3 -> 0 <= full_k phi ->
  rep (errf full_rotor (stall_sect full_lift) 0 (Fin phi)) (sin phi * (1 + full_k phi) - cos phi * (1 - full_k phi * (sin phi / cos phi) ^ 2)).
Proof.
  intros H C K1 K2.
  pose proof (residual_rep full_rotor (stall_sect full_lift) 1 1 0 1 1 (1 / 2) 3 1 1 0 (stall_cl full_lift) (fun _ _ => 0) phi (rep_Fin _) (rep_Fin _) (rep_Fin _) (rep_Fin _) (rep_Fin _)
    (rep_Fin _) (rep_Fin _) (rep_Fin _) (rep_Fin _) (rep_Fin _) (stall_computes full_lift) ltac:(lra) ltac:(lra) ltac:(lra) (ss_inside phi H) ltac:(lra)) as Q. cbv zeta in Q.
  replace (phi - (0 + 0)) with phi in Q by ring. change (stall_cl full_lift phi (1 * sqrt (1 ^ 2 + 1 ^ 2) * 1 / 1)) with (stall_cl full_lift phi 0) in Q.
  change (rt_opts full_rotor) with full in Q. change (rt_B full_rotor) with 2%nat in Q. rewrite full_loading in Q by exact H. specialize (Q ltac:(lra)).
  rewrite ind_pos in Q by (apply ss_inside; exact H). unfold out_fzero in Q. cbn [fst] in Q. rewrite kp_spec in Q by (apply ss_inside; exact H) || lra.
  rewrite lift_kp in Q by (reflexivity || exact C || (apply ss_inside; exact H)). rewrite full_loading in Q by exact H. rewrite axial_low in Q by exact K1.
  change (wakerotation full) with true in Q. cbv iota in Q.
  match type of Q with rep _ ?v => replace v with (sin phi * (1 + full_k phi) - cos phi * (1 - full_k phi * (sin phi / cos phi) ^ 2)) in Q; [exact Q|] end.
  set (k := full_k phi) in *. clearbody k. field. repeat split; try lra; apply Rgt_not_eq; lra.
Qed.
Lemma full_k_peak : full_k peak = 4 / 21.
Proof.
  destruct peak_facts as ((P1 & P2) & S & C). pose proof PI_4. pose proof (lossy_unit peak ltac:(lra)). unfold full_k, full_lift. rewrite (ramp_high peak) by lra. rewrite S, C. field. lra.
Qed.
Lemma full_zero : rep (errf full_rotor (stall_sect full_lift) 0 (Fin peak)) 0.
Proof.
  destruct peak_facts as ((P1 & P2) & S & C). pose proof PI_4. pose proof (full_rep peak ltac:(lra) ltac:(lra)) as Q. rewrite full_k_peak, S, C in Q.
  replace 0 with (3 / 5 * (1 + 4 / 21) - 4 / 5 * (1 - 4 / 21 * (3 / 5 / (4 / 5)) ^ 2)) by field. apply Q; lra.
Qed.
Lemma full_rising : rising (fun al => stall_cl full_lift al (1 * sqrt (1 ^ 2 + 1 ^ 2) * 1 / 1)) (- (0 + 0)) (PI / 2 - (0 + 0)).
Proof.
  intros x y A L B. pose proof (ramp_rising x y A L B) as R. unfold stall_cl, full_lift in *. destruct peak_facts as ((P1 & P2) & _). pose proof PI_4. pose proof (lossy_unit peak ltac:(lra)).
  replace (3 * PI / 5 * (4 / 7 * lossy peak * ramp x)) with (4 / 7 * lossy peak * (3 * PI / 5 * ramp x)) by ring. replace (3 * PI / 5 * (4 / 7 * lossy peak * ramp y)) with (4 / 7 * lossy peak * (3 * PI / 5 * ramp y)) by ring.
  apply Rmult_le_compat_l; lra.
Qed.
Lemma full_bracket npi : 3 < npi < PI -> documented_bracket npi (errf full_rotor (stall_sect full_lift) 0) (1 / 1000000) (npi / 2).
Proof.
  intros Hn. destruct peak_facts as ((P1 & P2) & SP & CP). pose proof PI_4 as P4. apply standard.
  assert (C : 0 < cos (1 / 1000000)) by (apply cos_gt_0; lra). assert (C2 : 0 < cos (npi / 2)) by (apply cos_gt_0; lra).
  assert (K0 : full_k (1 / 1000000) = 0) by (unfold full_k, full_lift; rewrite ramp_low; unfold Rdiv; ring).
  pose proof (full_rep (1 / 1000000) ltac:(lra) C) as R1. rewrite K0 in R1. specialize (R1 ltac:(lra) ltac:(lra)).
  assert (N : sin (1 / 1000000) - cos (1 / 1000000) < 0).
  { rewrite <- (cos_shift (1 / 1000000)). assert (cos (PI / 2 - 1 / 1000000) < cos (1 / 1000000)) by (apply cos_decreasing_1; lra). lra. }
  assert (N2 : 0 < sin (npi / 2) - cos (npi / 2)).
  { rewrite <- (cos_shift (npi / 2)). assert (cos (npi / 2) < cos (PI / 2 - npi / 2)) by (apply cos_decreasing_1; lra). lra. }
  destruct (loss_falls full 2 1 (1 / 2) 3 peak (npi / 2) ltac:(lia) ltac:(lra) ltac:(lra) ltac:(lra) ltac:(lra) ltac:(lra)) as [_ L]. fold (lossy peak) (lossy (npi / 2)) in L. rewrite SP in L.
  pose proof (lossy_unit peak ltac:(lra)) as U1. pose proof (lossy_unit (npi / 2) ltac:(lra)) as U2.
  pose proof (full_rep (npi / 2) ltac:(lra) C2) as R2. assert (KE : full_k (npi / 2) = 3 / 35 * lossy peak * cos (npi / 2) / (lossy (npi / 2) * sin (npi / 2) ^ 2)) by (unfold full_k, full_lift; rewrite ramp_high by lra; f_equal; field).
  set (k := full_k (npi / 2)) in *. set (S := sin (npi / 2)) in *. set (c := cos (npi / 2)) in *. set (F1 := lossy peak) in *. set (F2 := lossy (npi / 2)) in *.
  assert (D : 0 < F2 * S ^ 2) by (apply Rmult_lt_0_compat; [lra|apply pow_lt; lra]).
  assert (KP : 0 < k) by (rewrite KE; apply Rdiv_lt_0_compat; [apply Rmult_lt_0_compat; [apply Rmult_lt_0_compat; lra|lra]|exact D]).
  assert (K1 : k <= 2 / 3).
  { rewrite KE. apply (Rmult_le_reg_r (F2 * S ^ 2)); [exact D|]. unfold Rdiv at 1. rewrite Rmult_assoc, Rinv_l by (apply Rgt_not_eq; exact D). rewrite Rmult_1_r.
    assert (B1 : F1 * c <= 5 / 3 * (F2 * S) * c) by (apply Rmult_le_compat_r; lra). assert (B2 : F2 * S * c <= F2 * S * S) by (apply Rmult_le_compat_l; [apply Rmult_le_pos; lra|lra]). replace (F2 * S ^ 2) with (F2 * S * S) by ring. assert (0 < F2 * S * S) by (apply Rmult_lt_0_compat; [apply Rmult_lt_0_compat; lra|lra]). lra. }
  specialize (R2 K1 ltac:(lra)). clear KE L. clearbody k S c.
  assert (T1 : 0 < S * k) by (apply Rmult_lt_0_compat; lra). assert (T2 : 0 <= c * (k * (S / c) ^ 2)) by (apply Rmult_le_pos; [lra|apply Rmult_le_pos; [lra|apply pow2_ge_0]]).
  apply rep_inv in R1, R2. destruct R1 as [->|[_ E]]; [|exfalso; lra]. destruct R2 as [->|[_ E]]; [|exfalso; lra].
  unfold same_strict_sign. rewrite !pos_Fin, !neg_Fin. lra.
Qed.

(** With drag in the induction: a constant drag of 1/10, lift like the tent and lower by 1/10 elsewhere. *)
Definition dragged : bemopts := mkOpts true false false false.
Definition dragged_rotor : rotor fl := mkRotor (Fin (1 / 2)) (Fin 3) 2 (Fin 1) (Fin 1) dragged 1 (Fin 0).
Definition dragged_cl (al _ : R) : R := (3 * PI / 5 + 1 / 40) * tent al - 1 / 10.
Definition dragged_af : airfoil fl := fun al _ => match fval al with Some x => (Fin (dragged_cl x 0), Fin (1 / 10)) | None => (NaN, NaN) end.
Lemma dragged_computes : computes dragged_af dragged_cl (fun _ _ => 1 / 10).
Proof. intros al' Re' al Re H _. unfold dragged_af. unfold rep in H. rewrite H. split; apply rep_Fin. Qed.
Definition dragged_sect : sect fl := mkSect (Fin 1) (Fin 1) (Fin 0) dragged_af (Fin 1) (Fin 1).
Definition dragged_k (phi : R) : R := loading dragged 2 1 1 (1 / 2) 3 phi (dragged_cl phi 0) (1 / 10).

Lemma dragged_rep phi : 0 < phi < PI -> 0 < cos phi -> 0 <= dragged_k phi -> dragged_k phi <= 2 / 3 -> rep (errf dragged_rotor dragged_sect 0 (Fin phi)) (sin phi * (1 + dragged_k phi) - cos phi).
Proof.
  intros H C K1 K2.
  pose proof (residual_rep dragged_rotor dragged_sect 1 1 0 1 1 (1 / 2) 3 1 1 0 dragged_cl (fun _ _ => 1 / 10) phi (rep_Fin _) (rep_Fin _) (rep_Fin _) (rep_Fin _) (rep_Fin _)
    (rep_Fin _) (rep_Fin _) (rep_Fin _) (rep_Fin _) (rep_Fin _) dragged_computes ltac:(lra) ltac:(lra) ltac:(lra) (ss_inside phi H) ltac:(lra)) as Q. cbv zeta in Q.
  replace (phi - (0 + 0)) with phi in Q by ring. change (dragged_cl phi (1 * sqrt (1 ^ 2 + 1 ^ 2) * 1 / 1)) with (dragged_cl phi 0) in Q.
  change (rt_opts dragged_rotor) with dragged in Q. change (rt_B dragged_rotor) with 2%nat in Q. fold (dragged_k phi) in Q. specialize (Q ltac:(lra)).
  rewrite ind_pos in Q by (apply ss_inside; exact H). unfold out_fzero in Q. cbn [fst] in Q. fold (dragged_k phi) in Q. rewrite axial_low in Q by exact K2.
  change (wakerotation dragged) with false in Q. cbv iota in Q.
  match type of Q with rep _ ?v => replace v with (sin phi * (1 + dragged_k phi) - cos phi) in Q; [exact Q|] end.
  set (k := dragged_k phi) in *. clearbody k. field. lra.
Qed.
Lemma dragged_peak : dragged_k peak = 1 / 3 /\ dragged_k (PI / 4) = 0.
Proof.
  destruct peak_facts as ((P1 & P2) & S & C). pose proof PI_RGT_0. assert (T2 : tent (PI / 4) = 0) by (apply tent_out; rewrite Rabs_pos_eq; lra).
  unfold dragged_k, loading, coef_n, lossF. cbn [useCd tipLoss hubLoss dragged]. rewrite ss_solidity. unfold dragged_cl. rewrite tent_peak, T2, S, C. split; [field; lra|]. rewrite sin_PI4, cos_PI4. unfold Rdiv. ring.
Qed.
Lemma dragged_zeros : rep (errf dragged_rotor dragged_sect 0 (Fin peak)) 0 /\ rep (errf dragged_rotor dragged_sect 0 (Fin (PI / 4))) 0.
Proof.
  destruct peak_facts as ((P1 & P2) & S & C). pose proof PI_RGT_0. destruct dragged_peak as [K1 K2]. split.
  - pose proof (dragged_rep peak ltac:(lra) ltac:(lra)) as Q. rewrite K1, S, C in Q. replace 0 with (3 / 5 * (1 + 1 / 3) - 4 / 5) by field. apply Q; lra.
  - assert (C4 : 0 < cos (PI / 4)) by (apply cos_gt_0; lra). pose proof (dragged_rep (PI / 4) ltac:(lra) C4) as Q. rewrite K2 in Q. replace 0 with (sin (PI / 4) * (1 + 0) - cos (PI / 4)) by (rewrite sin_PI4, cos_PI4; ring). apply Q; lra.
Qed.
