(** A rotor whose loads have a closed form, for examples and counterexamples about the components: the section of
    BladeDvExample.v (cn = 4 c0 sin^2 alpha, ct = sin^2 alpha, c0 = 2 pi / 3) at zero twist and pitch. *)
From Coquelicot Require Import Coquelicot.
From Coq Require Import Reals Bool Arith List Lra Lia.
From Verif Require Import Prelim Num Bem BemGeomSpec BemGeomProofs IndSpec InterpSpec DiffSpec BemDiff DeriveLib Blade StationProofs
  InterpProofs ConstructProofs BladeDiff BladeDiffSpec StationDvProofs BladeDvProofs EvalDvProofs BladeDvExample.
From Verif Require Import SectorWitness Component ComponentSpec ComponentProofs ComponentRho.
Import ListNotations.
Open Scope R_scope.

Section Station.
Variable npi Vx Vy r c rho mu Rhub Rtip pitch theta : R.
Hypothesis HV : 0 < Vx. Hypothesis HV2 : 0 < Vy. Hypothesis Hr : 0 < r. Hypothesis Hc : 0 < c < 2 * r.
Hypothesis Hp : pitch + theta = 0.
Let rt := mkRotor Rhub Rtip 1 rho mu ex_opts 1 pitch.
Let sc := mkSect r c theta ex_af Vx Vy.
Let k := c / (3 * r).
(** Axial speed behind the induction. *)
Definition slowed (Vx r c : R) : R := Vx / (1 + c / (3 * r)).

Lemma k_range : 0 < k < 2 / 3.
Proof.
  unfold k. split; [apply Rdiv_lt_0_compat; lra|]. apply (Rmult_lt_reg_r (3 * r)); [lra|].
  unfold Rdiv at 1. rewrite Rmult_assoc, Rinv_l by lra. lra.
Qed.

Lemma exact_pass phi : 0 < phi <= PI / 2 ->
  bem_pass rt sc phi 0 0 = (sin phi * (1 + k) - cos phi * (Vx / Vy), k / (1 + k), 0, fst (ex_af phi 0), snd (ex_af phi 0)).
Proof.
  intros Hphi. pose proof PI_RGT_0 as HP. assert (S0 : 0 < sin phi) by (apply sin_gt_0; lra). pose proof k_range as Hk.
  unfold bem_pass, relativeWind, rt, sc. cbn [s_r s_chord s_theta s_af s_Vx s_Vy rt_pitch rt_rho rt_mu rt_opts rt_B rt_Rhub rt_Rtip nadd nsub nmul ndiv ofR R_arith].
  replace (phi - (theta + pitch)) with phi by lra. unfold ex_af at 1. cbv beta iota.
  set (cl := sin phi ^ 2 * (4 * ex_c * cos phi + sin phi)). set (cd := sin phi ^ 2 * (4 * ex_c * sin phi - cos phi)).
  unfold inductionFactors. cbn [wakerotation ex_opts negb].
  assert (Ek : l_k (bem_locals ex_opts 1 r c Rhub Rtip phi cl cd) = k).
  { unfold bem_locals, ex_opts. cbn [l_k useCd hubLoss tipLoss negb nadd nsub nmul ndiv nsin ncos ofR R_arith INR].
    replace (cl * cos phi + cd * sin phi) with (4 * ex_c * sin phi ^ 2).
    - unfold k, ex_c. field. repeat split; lra.
    - unfold cl, cd. pose proof (sin2_cos2 phi) as T. unfold Rsqr in T. replace (4 * ex_c * sin phi ^ 2) with (4 * ex_c * sin phi ^ 2 * (sin phi * sin phi + cos phi * cos phi)) by (rewrite T; ring). ring. }
  rewrite Ek. cbn [nlt nle ofR R_arith ndiv nsub nmul nadd].
  replace (rltb 0 phi) with true by (symmetry; apply rltb_true; lra).
  unfold axial_pos. cbn [nlt nle ofR R_arith ndiv nsub nmul nadd].
  replace (rleb k (2 / 3)) with true by (symmetry; apply rleb_true; lra).
  change (l_sphi _) with (sin phi). change (l_cphi _) with (cos phi).
  f_equal. f_equal. f_equal. f_equal.
  field. repeat split; lra.
Qed.

Lemma exact_err phi : 0 < phi <= PI / 2 -> errf rt sc 0 phi = sin phi * (1 + k) - cos phi * (Vx / Vy).
Proof. intros. unfold errf, bem_loop. cbn [ofR R_arith]. rewrite exact_pass by assumption. reflexivity. Qed.

Definition exact_phi : R := atan (Vx / Vy / (1 + k)).
Lemma exact_phi_range : 0 < exact_phi < PI / 2.
Proof.
  pose proof k_range. split; [|apply atan_bound]. rewrite <- atan_0. apply atan_increasing.
  apply Rdiv_lt_0_compat; [apply Rdiv_lt_0_compat; lra|lra].
Qed.

Lemma exact_solve : solve npi ex_bq (errf rt sc 0) = Ok exact_phi.
Proof.
  pose proof k_range. pose proof PI_RGT_0. unfold solve. destruct (bracket _ _) as [lo hi]. unfold ex_bq.
  rewrite !exact_err by lra. rewrite sin_PI2, cos_PI2, sin_PI4, cos_PI4. f_equal. unfold exact_phi. f_equal.
  assert (0 < sqrt 2) by (apply sqrt_lt_R0; lra). field. repeat split; lra.
Qed.

Lemma exact_loads : exists l, loads rt exact_phi true sc = Ok l /\
  o_a l = k / (1 + k) /\ o_ap l = 0 /\ o_cn l = 4 * ex_c * sin exact_phi ^ 2 /\
  o_Np l = 2 * ex_c * rho * c * slowed Vx r c ^ 2 /\ o_Tp l = 1 / 2 * rho * c * slowed Vx r c ^ 2.
Proof.
  pose proof exact_phi_range as Hph. pose proof k_range as Hk. set (phi := exact_phi) in *.
  unfold loads. change (s_Vx sc) with Vx. change (s_Vy sc) with Vy. cbn [neq ofR R_arith].
  replace (reqb Vx 0) with false by (symmetry; apply reqb_false; lra).
  replace (reqb Vy 0) with false by (symmetry; apply reqb_false; lra). cbn [andb negb].
  unfold runBEM. change (rt_iterRe rt) with 1%nat. cbv iota. unfold bem_loop. cbn [ofR R_arith bind].
  rewrite exact_pass by lra. cbn [bind].
  unfold relativeWind. cbn [nlt nabs ofR R_arith nadd nsub nmul ndiv].
  assert (A : 0 < k / (1 + k) < 1).
  { split; [apply Rdiv_lt_0_compat; lra|]. apply (Rmult_lt_reg_r (1 + k)); [lra|]. unfold Rdiv. rewrite Rmult_assoc, Rinv_l by lra. lra. }
  rewrite Rabs_R0, (Rabs_right (k / (1 + k))) by lra.
  replace (rltb 10 (k / (1 + k))) with false by (symmetry; apply rltb_false; lra).
  replace (rltb 10 0) with false by (symmetry; apply rltb_false; lra). cbv zeta beta iota.
  eexists. split; [reflexivity|].
  cbn [o_a o_ap o_cn o_Np o_Tp nadd nsub nmul ncos nsin nsqrt R_arith]. change (rt_rho rt) with rho. change (s_chord sc) with c.
  split; [reflexivity|]. split; [reflexivity|].
  set (U := Vx * (1 - k / (1 + k))). assert (EU : U = slowed Vx r c) by (unfold U, slowed; fold k; field; lra).
  replace (Vy * (1 + 0)) with Vy by ring. rewrite sqrt_sqrt by nra.
  pose proof (sin2_cos2 phi) as T. unfold Rsqr in T.
  assert (SU : sin phi ^ 2 * (U * U + Vy * Vy) = U ^ 2).
  { assert (C : 0 < cos phi) by (apply cos_gt_0; lra).
    assert (TT : sin phi * Vy = cos phi * U).
    { pose proof (atan_right_inv (Vx / Vy / (1 + k))) as X. change (atan _) with phi in X. unfold tan in X.
      apply (Rmult_eq_reg_r (/ cos phi / Vy)); [|apply Rmult_integral_contrapositive; split; apply Rinv_neq_0_compat; lra].
      transitivity (sin phi / cos phi); [field; lra|]. rewrite X, EU. unfold slowed. fold k. field. repeat split; lra. }
    replace (sin phi ^ 2 * (U * U + Vy * Vy)) with ((sin phi * U) ^ 2 + (sin phi * Vy) ^ 2) by ring. rewrite TT.
    replace ((sin phi * U) ^ 2 + (cos phi * U) ^ 2) with (U ^ 2 * (sin phi * sin phi + cos phi * cos phi)) by ring. rewrite T. ring. }
  unfold ex_af. cbn [fst snd]. rewrite <- EU, <- SU. split; [|split].
  - replace (4 * ex_c * sin phi ^ 2) with (4 * ex_c * sin phi ^ 2 * (sin phi * sin phi + cos phi * cos phi)) by (rewrite T; ring). ring.
  - replace (2 * ex_c * rho * c * (sin phi ^ 2 * (U * U + Vy * Vy)))
      with (2 * ex_c * rho * c * (sin phi ^ 2 * (U * U + Vy * Vy)) * (sin phi * sin phi + cos phi * cos phi)) by (rewrite T; ring). field.
  - replace (1 / 2 * rho * c * (sin phi ^ 2 * (U * U + Vy * Vy)))
      with (1 / 2 * rho * c * (sin phi ^ 2 * (U * U + Vy * Vy)) * (sin phi * sin phi + cos phi * cos phi)) by (rewrite T; ring). field.
Qed.

Lemma exact_station : exists l, solve_station npi ex_bq rt true sc = Ok l /\
  o_Np l = 2 * ex_c * rho * c * slowed Vx r c ^ 2 /\ o_Tp l = 1 / 2 * rho * c * slowed Vx r c ^ 2.
Proof.
  destruct exact_loads as (l & E & _ & _ & _ & H1 & H2). exists l. split; [|auto].
  unfold solve_station. change (rt_iterRe rt) with 1%nat. cbv iota. rewrite exact_solve. cbn [bind]. rewrite E. cbn [bind]. apply nan_guard_R.
Qed.

Lemma exact_dv : exists o, loads_dv rt exact_phi true sc ex_afd = Ok o /\
  o_Np (fst (fst (fst o))) = 2 * ex_c * rho * c * slowed Vx r c ^ 2.
Proof.
  destruct exact_loads as (l & E & Ha & Hap & Hcn & HN & _). pose proof exact_phi_range as Hph. pose proof k_range as Hk. pose proof PI_RGT_0.
  unfold loads_dv, loads_dv_with, load_slope. rewrite E. change (s_Vx sc) with Vx. change (s_Vy sc) with Vy.
  replace (reqb Vx 0) with false by (symmetry; apply reqb_false; lra).
  replace (reqb Vy 0) with false by (symmetry; apply reqb_false; lra). cbn [andb negb bind].
  destruct (residualDerivatives _ _ _ _) as [[dR da] dap].
  match goal with |- context [ex_afd ?c ?d] => destruct (ex_afd c d) as [[[? ?] ?] ?] end.
  assert (A : 0 < k / (1 + k) < 1).
  { split; [apply Rdiv_lt_0_compat; lra|]. apply (Rmult_lt_reg_r (1 + k)); [lra|]. unfold Rdiv. rewrite Rmult_assoc, Rinv_l by lra. lra. }
  match goal with |- context [orb (orb ?a ?b) ?c] => replace (orb (orb a b) c) with false; [eexists; split; [reflexivity|exact HN]|symmetry; apply orb_false_intro; [apply orb_false_intro|]] end.
  - apply reqb_false. rewrite Hcn. assert (0 < sin exact_phi) by (apply sin_gt_0; lra). apply Rgt_not_eq. apply Rmult_lt_0_compat; [unfold ex_c; lra|apply pow_lt; lra].
  - apply reqb_false. rewrite Ha, Hap. unfold relativeWind_dv. cbn [rw_w].
    replace (rleb 0 (k / (1 + k))) with true by (symmetry; apply rleb_true; lra).
    replace (rltb 10 (k / (1 + k))) with false by (symmetry; apply rltb_false; lra).
    replace (rleb 0 0) with true by (symmetry; apply rleb_true; lra).
    replace (rltb 10 0) with false by (symmetry; apply rltb_false; lra). cbn [rw_w].
    apply Rgt_not_eq. apply sqrt_lt_R0. apply Rplus_le_lt_0_compat; [apply pow2_ge_0|apply pow_lt; lra].
  - apply reqb_false. change (s_chord sc) with c. lra.
Qed.
End Station.

(** ** The straight two-station rotor of BladeDvExample.v as component inputs *)
Definition xr (s rho yaw : R) : eval_in :=
  mkEvalIn [1; 2] [s / 10; s / 10] [0; 0] (1 / 2) 3 90 0 0 yaw [0; 0] 0 [0; 0] 0 1 rho 1 0 4 ex_opts s (150 / PI) 0
    (fun _ => ex_af) (fun _ => ex_afd).
(** First station r0, hub radius Rhub. *)
Definition xl (s r0 Rhub : R) : load_in :=
  mkLoadIn [r0; 2] [s / 10; s / 10] [0; 0] Rhub 3 90 0 0 0 [0; 0] 0 1 1 1 0 4 ex_opts s (150 / PI) 0 0
    (fun _ => ex_af) (fun _ => ex_afd).

Lemma two_increasing a b : a < b -> increasing [a; b].
Proof. intros H [|[|i]] [|[|j]] Hij; simpl in *; lra || lia. Qed.
Lemma zeros_clear a b : clear_tip [a; b] (Some [0; 0]) 0.
Proof. split; [reflexivity|right; reflexivity]. Qed.

Lemma xr_clear s rho yaw : clear_ends (ri_args (eval_rotor (xr s rho yaw))).
Proof.
  unfold clear_ends, eval_rotor, xr. cbn [ri_args g_r g_Rhub g_Rtip g_precurve g_precurveTip g_presweep g_presweepTip ei_r ei_Rhub ei_Rtip ei_precurve ei_precurveTip ei_presweep ei_presweepTip length hd last fill_precurve].
  split; [lia|]. split; [apply two_increasing; lra|]. split; [lra|]. split; [lra|]. split; apply zeros_clear.
Qed.
Lemma xl_clear s r0 Rhub : r0 < 2 -> r0 <> Rhub -> clear_ends (ri_args (load_rotor (xl s r0 Rhub))).
Proof.
  intros H1 H2. unfold clear_ends, load_rotor, xl. cbn [ri_args g_r g_Rhub g_Rtip g_precurve g_precurveTip g_presweep g_presweepTip li_r li_Rhub li_Rtip li_precurve li_precurveTip length hd last fill_precurve].
  split; [lia|]. split; [apply two_increasing; lra|]. split; [lra|]. split; [lra|].
  split; [apply zeros_clear|]. split; [reflexivity|right; reflexivity].
Qed.

Lemma xr_fixed0 s : eval_fixed (xr s 1 0) = ex_fxm 1.
Proof.
  unfold eval_fixed, given_fixed, sector_count, eval_rotor, xr. cbn [ri_args g_tilt g_yaw g_shearExp ei_tilt ei_yaw ei_shearExp].
  replace (reqb 0 0) with true by (symmetry; apply reqb_true; reflexivity). reflexivity.
Qed.
Lemma xr_design s : eval_design (xr s 1 0) = ex_D s.
Proof. reflexivity. Qed.
Lemma xl_fixed s r0 Rhub : load_fixed (xl s r0 Rhub) = ex_fxm 1.
Proof. reflexivity. Qed.
Lemma xl_design s : load_design (xl s 1 (1 / 2)) = ex_D s.
Proof. reflexivity. Qed.

(** Any straight two-station design with stations r0 < 2, zero twist and pitch. *)
Section Flat.
Variable npi c r0 U yaw az Rhub rho : R.
Variable nsec : nat.
Hypothesis Hr : 0 < r0 < 2. Hypothesis Hc : 0 < c < 2 * r0.
Hypothesis HU : 0 < U * cos (radians yaw). Hypothesis HUr : Rabs U < 5 * r0.
Let D : design :=
  mkDesign (aget [r0; 2]) (aget [c; c]) (aget [0; 0]) (aget [0; 0]) (aget [0; 0]) 0 0 90 Rhub 3 0 0 yaw 0 az U (150 / PI) 0.
Let fx : fixed := mkFixed 2 (fun _ => ex_af) (fun _ => ex_afd) 1 rho 1 ex_opts 1 nsec.

Lemma flat_wind i : (i < 2)%nat -> fst (wind_d fx D) i = U * cos (radians yaw) /\ 0 < snd (wind_d fx D) i.
Proof.
  intros Hi. unfold wind_d, windComponents, D, fx.
  cbn [f_n x_r x_chord x_theta x_precurve x_presweep x_precone x_tilt x_hubHt x_Rhub x_Rtip x_precurveTip x_presweepTip x_yaw x_shear x_azimuth x_Uinf x_Omega x_pitch fst snd].
  destruct (defineCurvature 2 (aget [r0; 2]) (aget [0; 0]) (aget [0; 0]) (radians 0)) as [[[[x y] z] cone] s] eqn:EC. cbn [fst snd].
  rewrite radians_0 in EC.
  destruct (d_curvature 2 (aget [r0; 2]) (aget [0; 0]) (aget [0; 0]) x y z cone s i Hi (le_n 2)
    ltac:(intros [|[|j]] Hj; reflexivity || lia) ltac:(intros [|[|j]] Hj; reflexivity || lia)
    ltac:(intros [|j] Hj; [unfold aget; simpl; lra|lia]) EC) as (Hy & Hz & Hco & _).
  rewrite !radians_0, Hy, Hz, Hco, sin_0, cos_0. unfold rpow. replace (reqb 0 0) with true by (symmetry; apply reqb_true; reflexivity).
  split; [ring|].
  assert (Z : r0 <= aget [r0; 2] i) by (destruct i as [|[|i]]; [| |lia]; unfold aget; simpl; lra).
  replace (150 / PI * PI / 30 * aget [r0; 2] i) with (5 * aget [r0; 2] i) by (field; apply PI_neq0).
  set (a := radians az). set (w := radians yaw).
  assert (B : Rabs (sin w * cos a) <= 1).
  { rewrite Rabs_mult. pose proof (SIN_bound w). pose proof (COS_bound a).
    assert (Rabs (sin w) <= 1) by (apply Rabs_le; lra). assert (Rabs (cos a) <= 1) by (apply Rabs_le; lra).
    pose proof (Rabs_pos (sin w)). pose proof (Rabs_pos (cos a)). nra. }
  assert (B2 : Rabs (U * (sin w * cos a)) <= Rabs U) by (rewrite Rabs_mult; pose proof (Rabs_pos U); nra).
  apply Rabs_le_between in B2. nra.
Qed.

Lemma flat_at i : (i < 2)%nat -> aget [r0; 2] i <> 0 /\ 0 < aget [r0; 2] i /\ r0 <= aget [r0; 2] i /\ aget [c; c] i = c /\ aget [0; 0] i = 0.
Proof. intros Hi. destruct i as [|[|i]]; [| |lia]; unfold aget; cbn [nth]; repeat split; lra. Qed.

Lemma flat_omega : reqb (x_Omega D) 0 = false.
Proof. apply reqb_false. unfold D. cbn [x_Omega]. pose proof PI_RGT_0. apply Rgt_not_eq, Rdiv_lt_0_compat; lra. Qed.

Lemma flat_station i : (i < 2)%nat -> exists l, solve_station npi ex_bq (rotor_d fx D) true (sect_d fx D i) = Ok l /\
  o_Np l = 2 * ex_c * rho * c * slowed (U * cos (radians yaw)) (aget [r0; 2] i) c ^ 2 /\
  o_Tp l = 1 / 2 * rho * c * slowed (U * cos (radians yaw)) (aget [r0; 2] i) c ^ 2.
Proof.
  intros Hi. destruct (flat_wind i Hi) as [W1 W2]. destruct (flat_at i Hi) as (F1 & F2 & F3 & F4 & F5).
  unfold sect_d, rotor_d. rewrite W1. change (x_r D i) with (aget [r0; 2] i). change (x_chord D i) with (aget [c; c] i). rewrite F4.
  apply exact_station; try assumption; try lra.
  change (x_theta D i) with (aget [0; 0] i). rewrite F5. change (x_pitch D) with 0. rewrite radians_0. ring.
Qed.

Lemma flat_loads : exists l0 l1, loads_list npi ex_bq fx D = Ok [l0; l1] /\
  o_Np l0 = 2 * ex_c * rho * c * slowed (U * cos (radians yaw)) r0 c ^ 2 /\
  o_Np l1 = 2 * ex_c * rho * c * slowed (U * cos (radians yaw)) 2 c ^ 2 /\
  o_Tp l0 = 1 / 2 * rho * c * slowed (U * cos (radians yaw)) r0 c ^ 2 /\
  o_Tp l1 = 1 / 2 * rho * c * slowed (U * cos (radians yaw)) 2 c ^ 2.
Proof.
  destruct (flat_station 0 ltac:(lia)) as (l0 & E0 & N0 & T0). destruct (flat_station 1 ltac:(lia)) as (l1 & E1 & N1 & T1).
  exists l0, l1. split; [|auto]. unfold loads_list. rewrite flat_omega. cbn [negb]. change (seq 0 (f_n fx)) with [0%nat; 1%nat].
  cbn [mapM]. rewrite E0. cbn [bind]. rewrite E1. reflexivity.
Qed.

Lemma flat_dv : exists o, distributed_dv npi ex_bq fx D = Ok o /\
  forall i, (i < 2)%nat -> fst (fst (fst o)) i = 2 * ex_c * rho * c * slowed (U * cos (radians yaw)) (aget [r0; 2] i) c ^ 2.
Proof.
  assert (S : forall i, (i < 2)%nat -> exists o, station_dv npi ex_bq fx D i = Ok o /\
     o_Np (fst (fst (fst o))) = 2 * ex_c * rho * c * slowed (U * cos (radians yaw)) (aget [r0; 2] i) c ^ 2).
  { intros i Hi. destruct (flat_wind i Hi) as [W1 W2]. destruct (flat_at i Hi) as (F1 & F2 & F3 & F4 & F5).
    unfold station_dv. rewrite flat_omega. cbn [negb]. unfold sect_d, rotor_d. rewrite W1.
    change (x_r D i) with (aget [r0; 2] i). change (x_chord D i) with (aget [c; c] i). rewrite F4.
    change (f_afd fx i) with ex_afd. change (f_af fx i) with ex_af. cbn [rt_iterRe].
    set (pp := radians (x_pitch D)). set (th := radians (x_theta D i)).
    assert (PT : pp + th = 0).
    { unfold pp, th. change (x_theta D i) with (aget [0; 0] i). rewrite F5. change (x_pitch D) with 0. rewrite radians_0. ring. }
    change (f_B fx) with 1%nat. change (f_rho fx) with rho. change (f_mu fx) with 1. change (f_opts fx) with ex_opts. change (f_iterRe fx) with 1%nat.
    cbv iota. rewrite (exact_solve npi (U * cos (radians yaw)) (snd (wind_d fx D) i) (aget [r0; 2] i) c rho 1 (x_Rhub D) (x_Rtip D) pp th) by (assumption || lra).
    cbn [bind]. apply exact_dv; assumption || lra. }
  destruct (S 0%nat ltac:(lia)) as (o0 & E0 & N0). destruct (S 1%nat ltac:(lia)) as (o1 & E1 & N1).
  unfold distributed_dv, loads_jac. change (seq 0 (f_n fx)) with [0%nat; 1%nat]. cbn [mapM]. rewrite E0. cbn [bind]. rewrite E1. cbn [bind].
  eexists. split; [reflexivity|]. cbn [fst j_Np]. intros [|[|i]] Hi; [exact N0|exact N1|lia].
Qed.
End Flat.
