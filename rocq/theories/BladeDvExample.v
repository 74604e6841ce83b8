(** A rotor on which all hypotheses of the derivative theorems (C37, C38, C64, C65) hold: two stations, one blade, any
    number [m] of azimuths; the curve of designs changes the wind speed and the chord. *)
From Coquelicot Require Import Coquelicot.
From Coq Require Import Reals Bool Arith List Lra Lia.
From Verif Require Import Prelim Num Bem BemGeomSpec IndSpec DiffSpec BemDiff DeriveLib Blade BladeDiff BladeDiffSpec
  StationDvProofs BladeDvProofs EvalDvProofs.
Import ListNotations.
Open Scope R_scope.

Definition ex_c : R := 2 * PI / 3.
(** cn = 4 ex_c sin^2 alpha, ct = sin^2 alpha when phi = alpha *)
Definition ex_af : airfoil R := fun al _ => (sin al ^ 2 * (4 * ex_c * cos al + sin al), sin al ^ 2 * (4 * ex_c * sin al - cos al)).
Definition ex_afd : airfoil_dv := fun al _ =>
  (2 * sin al * cos al * (4 * ex_c * cos al + sin al) + sin al ^ 2 * (- (4 * ex_c * sin al) + cos al), 0,
   2 * sin al * cos al * (4 * ex_c * sin al - cos al) + sin al ^ 2 * (4 * ex_c * cos al + sin al), 0).
Definition ex_opts : bemopts := mkOpts true false false false.
Definition ex_fxm (m : nat) : fixed := mkFixed 2 (fun _ => ex_af) (fun _ => ex_afd) 1 1 1 ex_opts 1 m.
Definition ex_fx : fixed := ex_fxm 4.
Definition ex_D (s : R) : design :=
  mkDesign (aget [1; 2]) (aget [s / 10; s / 10]) (aget [0; 0]) (aget [0; 0]) (aget [0; 0])
    0 0 90 (1 / 2) 3 0 0 0 0 0 s (150 / PI) 0.
Definition ex_v : design :=
  mkDesign (fun _ => 0) (fun _ => 1 / 10) (fun _ => 0) (fun _ => 0) (fun _ => 0) 0 0 0 0 0 0 0 0 0 0 1 0 0.
(** A root finder for residuals of the form A sin phi - B cos phi. *)
Definition ex_bq : rootfinder R := fun f _ _ => Ok (atan ((f (PI / 2) - sqrt 2 * f (PI / 4)) / f (PI / 2))).

Lemma ex_smooth al Re : smooth_airfoil ex_af ex_afd al Re.
Proof.
  pose proof (is_derive_sin al) as HS. pose proof (is_derive_cos al) as HC. unfold smooth_airfoil, ex_afd. cbv beta iota. split.
  - apply (differentiable_pt_lim_proj1_0 (fun a => fst (ex_af a 0))). apply is_derive_Reals. unfold ex_af. cbn [fst]. der. ring.
  - apply (differentiable_pt_lim_proj1_0 (fun a => snd (ex_af a 0))). apply is_derive_Reals. unfold ex_af. cbn [snd]. der. ring.
Qed.

Lemma ex_derives s : design_derive 2 ex_D s ex_v.
Proof.
  unfold design_derive, arrays_derive, ex_D, ex_v.
  cbn [x_r x_chord x_theta x_precurve x_presweep x_precone x_tilt x_hubHt x_Rhub x_Rtip x_precurveTip x_presweepTip x_yaw x_shear x_azimuth x_Uinf x_Omega x_pitch].
  repeat match goal with |- _ /\ _ => split end; intros; try apply d_const; try apply d_id.
  assert (L : is_derive (fun u : R => u / 10) s (1 / 10)) by (der; [lra|]; field).
  destruct i as [|[|i]]; [exact L|exact L|lia].
Qed.

Lemma ex_r i : (i < 2)%nat -> aget [1; 2] i = INR (S i).
Proof. intros H. destruct i as [|[|i]]; [cbn; ring|cbn; ring|lia]. Qed.
Lemma ex_chord s i : (i < 2)%nat -> aget [s / 10; s / 10] i = s / 10.
Proof. intros H. destruct i as [|[|i]]; [reflexivity|reflexivity|lia]. Qed.
Lemma ex_zero i : aget [0; 0] i = 0.
Proof. destruct i as [|[|[|i]]]; reflexivity. Qed.

Lemma deg0 : radians 0 = 0. Proof. unfold radians. ring. Qed.

Section Az.
Variable az : R.
Let Da s := sector_design (ex_D s) az.

Lemma ex_wind s i : (i < 2)%nat -> fst (wind_d ex_fx (Da s)) i = s /\ snd (wind_d ex_fx (Da s)) i = 5 * INR (S i).
Proof.
  intros Hi. unfold wind_d, windComponents, Da, sector_design, set_azimuth, ex_D, ex_fx, ex_fxm, defineCurvature.
  cbn [f_n x_r x_chord x_theta x_precurve x_presweep x_precone x_tilt x_hubHt x_Rhub x_Rtip x_precurveTip x_presweepTip x_yaw x_shear x_azimuth x_Uinf x_Omega x_pitch fst snd].
  rewrite deg0, sin_0, cos_0. unfold rpow. replace (reqb 0 0) with true by (symmetry; apply reqb_true; reflexivity).
  assert (C : curv_cone 2 (curv_x (aget [1; 2]) (aget [0; 0]) 0) (curv_z (aget [1; 2]) (aget [0; 0]) 0) i = 0).
  { unfold curv_cone, curv_x, curv_z, atan2. rewrite cos_0, sin_0. destruct i as [|[|i]]; [| |lia]; cbn [Nat.eqb Nat.sub INR aget nth].
    - replace (rltb 0 _) with true by (symmetry; apply rltb_true; lra).
      match goal with |- atan ?u = 0 => replace u with 0 by field end. exact atan_0.
    - replace (rltb 0 _) with true by (symmetry; apply rltb_true; lra).
      match goal with |- atan ?u = 0 => replace u with 0 by field end. exact atan_0. }
  rewrite C. unfold curv_y, curv_z. rewrite ex_r, !ex_zero, sin_0, cos_0 by assumption. pose proof PI_neq0. split; field; try assumption; lra.
Qed.

(** Loading parameter of station i, and the angle. *)
Definition ex_k (s : R) (i : nat) : R := s / (30 * INR (S i)).
Definition ex_phi (i : nat) (s : R) : R := atan (s / (5 * INR (S i)) / (1 + ex_k s i)).

Lemma ex_pos i : 0 < INR (S i).
Proof. apply lt_0_INR. lia. Qed.
Lemma ex_k_bound s i : 0 < s < 20 -> 0 < ex_k s i < 2 / 3.
Proof.
  intros H. assert (1 <= INR (S i)) by (rewrite S_INR; pose proof (pos_INR i); lra). unfold ex_k. split.
  - apply Rdiv_lt_0_compat; lra.
  - apply (Rmult_lt_reg_r (30 * INR (S i))); [lra|]. unfold Rdiv at 1. rewrite Rmult_assoc, Rinv_l by lra. lra.
Qed.

Lemma ex_pass s i phi : 0 < s < 20 -> (i < 2)%nat -> 0 < phi <= PI / 2 ->
  bem_pass (rotor_d ex_fx (Da s)) (sect_d ex_fx (Da s) i) phi 0 0 =
  (sin phi * (1 + ex_k s i) - cos phi * (s / (5 * INR (S i))), ex_k s i / (1 + ex_k s i), 0,
   fst (ex_af phi 0), snd (ex_af phi 0)).
Proof.
  intros Hs Hi Hp. pose proof PI_RGT_0 as HP. assert (S0 : 0 < sin phi) by (apply sin_gt_0; lra).
  pose proof (ex_k_bound s i Hs) as Hk. pose proof (ex_pos i) as Hp0.
  destruct (ex_wind s i Hi) as [Ex Ey].
  unfold bem_pass, relativeWind, sect_d, rotor_d. cbn [s_r s_chord s_theta s_af s_Vx s_Vy rt_pitch rt_rho rt_mu rt_opts rt_B rt_Rhub rt_Rtip].
  rewrite Ex, Ey. unfold Da, sector_design, set_azimuth, ex_D, ex_fx, ex_fxm.
  cbn [f_n f_af f_B f_opts f_rho f_mu x_r x_chord x_theta x_Rhub x_Rtip x_pitch nadd nsub nmul ndiv ofR R_arith].
  rewrite ex_zero, ex_r, ex_chord by assumption. rewrite deg0. replace (phi - (0 + 0)) with phi by ring. unfold ex_af at 1. cbv beta iota.
  set (cl := sin phi ^ 2 * (4 * ex_c * cos phi + sin phi)). set (cd := sin phi ^ 2 * (4 * ex_c * sin phi - cos phi)).
  unfold inductionFactors. cbn [wakerotation ex_opts negb].
  assert (Ek : l_k (bem_locals ex_opts 1 (INR (S i)) (s / 10) (1 / 2) 3 phi cl cd) = ex_k s i).
  { unfold bem_locals, ex_opts. cbn [l_k useCd hubLoss tipLoss negb nadd nsub nmul ndiv nsin ncos ofR R_arith INR].
    change (match i with 0%nat => 1 | S _ => INR i + 1 end) with (INR (S i)).
    replace (cl * cos phi + cd * sin phi) with (4 * ex_c * sin phi ^ 2).
    - unfold ex_k, ex_c. field. repeat split; lra.
    - unfold cl, cd. pose proof (sin2_cos2 phi) as T. unfold Rsqr in T. replace (4 * ex_c * sin phi ^ 2) with (4 * ex_c * sin phi ^ 2 * (sin phi * sin phi + cos phi * cos phi)) by (rewrite T; ring). ring. }
  rewrite Ek. assert (EF : l_F (bem_locals ex_opts 1 (INR (S i)) (s / 10) (1 / 2) 3 phi cl cd) = 1 * 1) by reflexivity.
  cbn [nlt nle ofR R_arith ndiv nsub nmul nadd].
  replace (rltb 0 phi) with true by (symmetry; apply rltb_true; lra).
  unfold axial_pos. cbn [nlt nle ofR R_arith ndiv nsub nmul nadd].
  replace (rleb (ex_k s i) (2 / 3)) with true by (symmetry; apply rleb_true; lra).
  change (l_sphi _) with (sin phi). change (l_cphi _) with (cos phi).
  f_equal. f_equal. f_equal. f_equal.
  field. repeat split; lra.
Qed.

Lemma ex_err s i phi : 0 < s < 20 -> (i < 2)%nat -> 0 < phi <= PI / 2 ->
  errf (rotor_d ex_fx (Da s)) (sect_d ex_fx (Da s) i) 0 phi = sin phi * (1 + ex_k s i) - cos phi * (s / (5 * INR (S i))).
Proof. intros. unfold errf, bem_loop. cbn [ofR R_arith]. rewrite ex_pass by assumption. reflexivity. Qed.

Lemma ex_phi_range s i : 0 < s < 20 -> 0 < ex_phi i s < PI / 2.
Proof.
  intros H. pose proof (ex_k_bound s i H). pose proof (ex_pos i). split; [|apply atan_bound].
  rewrite <- atan_0. apply atan_increasing. apply Rdiv_lt_0_compat; [apply Rdiv_lt_0_compat; lra|lra].
Qed.

Lemma ex_root s i : 0 < s < 20 -> (i < 2)%nat ->
  errf (rotor_d ex_fx (Da s)) (sect_d ex_fx (Da s) i) 0 (ex_phi i s) = 0.
Proof.
  intros H Hi. pose proof (ex_k_bound s i H). pose proof (ex_pos i). pose proof (ex_phi_range s i H).
  rewrite ex_err by (assumption || lra).
  assert (C : 0 < cos (ex_phi i s)) by (apply cos_gt_0; lra).
  assert (T : sin (ex_phi i s) = cos (ex_phi i s) * (s / (5 * INR (S i)) / (1 + ex_k s i))).
  { pose proof (atan_right_inv (s / (5 * INR (S i)) / (1 + ex_k s i))) as T. fold (ex_phi i s) in T. rewrite <- T at 1.
    unfold tan. field. lra. }
  rewrite T. field. lra.
Qed.

Lemma ex_solve npi s i : 0 < s < 20 -> (i < 2)%nat ->
  solve npi ex_bq (errf (rotor_d ex_fx (Da s)) (sect_d ex_fx (Da s) i) 0) = Ok (ex_phi i s).
Proof.
  intros H Hi. pose proof (ex_k_bound s i H). pose proof (ex_pos i). pose proof PI_RGT_0. unfold solve.
  destruct (bracket _ _) as [lo hi]. unfold ex_bq. rewrite !ex_err by (assumption || lra).
  rewrite sin_PI2, cos_PI2, sin_PI4, cos_PI4. f_equal. unfold ex_phi. f_equal.
  assert (0 < sqrt 2) by (apply sqrt_lt_R0; lra). field. repeat split; lra.
Qed.

Lemma ex_result npi s i : 0 < s < 20 -> (i < 2)%nat -> exists l,
  station_result npi ex_bq ex_fx (Da s) i = Ok l /\ o_a l = ex_k s i / (1 + ex_k s i) /\ o_ap l = 0 /\
  o_cn l = 4 * ex_c * sin (ex_phi i s) ^ 2 /\ o_ct l = sin (ex_phi i s) ^ 2.
Proof.
  intros H Hi. pose proof (ex_phi_range s i H) as Hp. pose proof (ex_pos i).
  rewrite (result_rot _ _ _ _ _ (ex_phi i s)); [|reflexivity| |apply ex_solve; assumption].
  2:{ unfold Da, sector_design, set_azimuth, ex_D. cbn [x_Omega]. pose proof PI_RGT_0. apply Rgt_not_eq, Rdiv_lt_0_compat; lra. }
  unfold loads. destruct (ex_wind s i Hi) as [Ex Ey].
  unfold sect_d at 1 2. cbn [s_Vx s_Vy neq ofR R_arith]. rewrite Ex, Ey.
  replace (reqb s 0) with false by (symmetry; apply reqb_false; lra).
  replace (reqb (5 * INR (S i)) 0) with false by (symmetry; apply reqb_false; lra). cbn [andb negb].
  unfold runBEM. replace (rt_iterRe (rotor_d ex_fx (Da s))) with 1%nat by reflexivity. unfold bem_loop. cbn [ofR R_arith bind].
  rewrite ex_pass by (assumption || lra). cbn [bind].
  destruct (relativeWind _ _ _ _ _ _ _ _ _ _) as [[al W] Re]. eexists. split; [reflexivity|]. cbn [o_a o_ap o_cn o_ct fst snd ex_af nadd nsub nmul nsin ncos R_arith].
  split; [reflexivity|]. split; [reflexivity|]. pose proof (sin2_cos2 (ex_phi i s)) as T. unfold Rsqr in T. unfold ex_af. cbn [fst snd]. split.
  - replace (4 * ex_c * sin (ex_phi i s) ^ 2) with (4 * ex_c * sin (ex_phi i s) ^ 2 * (sin (ex_phi i s) * sin (ex_phi i s) + cos (ex_phi i s) * cos (ex_phi i s))) by (rewrite T; ring). ring.
  - replace (sin (ex_phi i s) ^ 2) with (sin (ex_phi i s) ^ 2 * (sin (ex_phi i s) * sin (ex_phi i s) + cos (ex_phi i s) * cos (ex_phi i s))) at 3 by (rewrite T; ring). ring.
Qed.

Lemma ex_locally s : 0 < s < 20 -> locally s (fun s => 0 < s < 20).
Proof. intros H. apply (locally_interval _ s 0 20); try (cbn; lra). intros y H1 H2. cbn in H1, H2. lra. Qed.

Lemma ex_regular s i : 0 < s < 20 -> (i < 2)%nat ->
  regular_station (rotor_d ex_fx (Da s)) ex_af ex_afd (xvec ex_fx (Da s) i (ex_phi i s)).
Proof.
  intros H Hi. pose proof (ex_phi_range s i H) as Hp. pose proof (ex_pos i) as Hr. destruct (ex_wind s i Hi) as [Ex Ey].
  pose proof PI_RGT_0. assert (S0 : 0 < sin (ex_phi i s)) by (apply sin_gt_0; lra). pose proof (ex_k_bound s i H) as Hk.
  unfold regular_station. split; [cbn; lra|]. unfold xvec, with_phi. cbn [nth]. rewrite Ex, Ey.
  split; [change (x_chord (Da s) i) with (aget [s / 10; s / 10] i); rewrite ex_chord by assumption; lra|].
  split; [lra|]. split; [lra|]. split; [apply ex_smooth|].
  unfold aoa, ex_af. cbv beta iota. change (x_theta (Da s) i) with (aget [0; 0] i). rewrite ex_zero. change (radians (x_pitch (Da s))) with (radians 0).
  rewrite deg0. replace (ex_phi i s - (0 + 0)) with (ex_phi i s) by ring.
  change (x_chord (Da s) i) with (aget [s / 10; s / 10] i). change (x_r (Da s) i) with (aget [1; 2] i). rewrite ex_r, ex_chord by assumption.
  unfold regular_ind, rotor_d, ex_fx, ex_fxm. cbn [rt_opts rt_B f_opts f_B].
  set (cl := sin (ex_phi i s) ^ 2 * (4 * ex_c * cos (ex_phi i s) + sin (ex_phi i s))).
  set (cd := sin (ex_phi i s) ^ 2 * (4 * ex_c * sin (ex_phi i s) - cos (ex_phi i s))).
  split; [lra|]. split; [lra|]. split; [split; intros X; discriminate X|]. split; [|intros X; discriminate X].
  left. split; [lra|].
  assert (E : loading ex_opts 1 (INR (S i)) (s / 10) (x_Rhub (Da s)) (x_Rtip (Da s)) (ex_phi i s) cl cd = ex_k s i).
  { unfold loading, solidity, coef_n, lossF, ex_opts. cbn [useCd hubLoss tipLoss INR].
    change (match i with 0%nat => 1 | S _ => INR i + 1 end) with (INR (S i)).
    replace (cl * cos (ex_phi i s) + cd * sin (ex_phi i s)) with (4 * ex_c * sin (ex_phi i s) ^ 2).
    - unfold ex_k, ex_c. field. repeat split; lra.
    - unfold cl, cd. pose proof (sin2_cos2 (ex_phi i s)) as T. unfold Rsqr in T. replace (4 * ex_c * sin (ex_phi i s) ^ 2) with (4 * ex_c * sin (ex_phi i s) ^ 2 * (sin (ex_phi i s) * sin (ex_phi i s) + cos (ex_phi i s) * cos (ex_phi i s))) by (rewrite T; ring). ring. }
  rewrite E. lra.
Qed.

Lemma ex_rotating npi s i : 0 < s < 20 -> (i < 2)%nat -> rotating_ok npi ex_bq ex_fx Da s i.
Proof.
  intros H Hi. pose proof (ex_phi_range s i H) as Hp. pose proof (ex_pos i) as Hr. pose proof (ex_k_bound s i H) as Hk. pose proof PI_RGT_0 as HP.
  unfold rotating_ok. split.
  { unfold Da, sector_design, set_azimuth, ex_D. cbn [x_Omega]. apply Rgt_not_eq, Rdiv_lt_0_compat; lra. }
  split; [reflexivity|]. split; [intros al Re Re'; reflexivity|]. exists (ex_phi i).
  split.
  { unfold ex_phi, ex_k. eexists. der; try lra. 2: reflexivity. unfold ex_k in Hk. lra. }
  split.
  { generalize (ex_locally s H). apply filter_imp. intros u Hu. split; [apply ex_solve; assumption|apply ex_root; assumption]. }
  split.
  { assert (S0 : 0 < sin (ex_phi i s)) by (apply sin_gt_0; lra). assert (C0 : 0 < cos (ex_phi i s)) by (apply cos_gt_0; lra).
    assert (0 < s / (5 * INR (S i))) by (apply Rdiv_lt_0_compat; lra).
    rewrite (is_derive_unique _ _ (cos (ex_phi i s) * (1 + ex_k s i) + sin (ex_phi i s) * (s / (5 * INR (S i))))).
    - apply Rgt_not_eq. apply Rplus_lt_0_compat; apply Rmult_lt_0_compat; lra.
    - apply (is_derive_ext_loc (fun p => sin p * (1 + ex_k s i) - cos p * (s / (5 * INR (S i))))).
      + apply (locally_interval _ (ex_phi i s) 0 (PI / 2)); try (cbn; lra). intros y H1 H2. cbn in H1, H2. symmetry. apply ex_err; [assumption|assumption|lra].
      + pose proof (is_derive_sin (ex_phi i s)) as HS; pose proof (is_derive_cos (ex_phi i s)) as HC; der; ring. }
  split; [apply ex_regular; assumption|]. split; [intros Re; apply ex_smooth|].
  intros l El. destruct (ex_result npi s i H Hi) as (l' & E1 & E2 & E3 & _). rewrite E1 in El. assert (l = l') by congruence. subst l'.
  rewrite E2, E3. destruct (ex_wind s i Hi) as [Ex Ey]. rewrite Ex, Ey.
  assert (A : 0 < ex_k s i / (1 + ex_k s i) < 1).
  { split; [apply Rdiv_lt_0_compat; lra|]. apply (Rmult_lt_reg_r (1 + ex_k s i)); [lra|]. unfold Rdiv. rewrite Rmult_assoc, Rinv_l by lra. lra. }
  right. right. rewrite Rabs_R0, Rabs_right by lra. split; [lra|]. split; [lra|]. right. lra.
Qed.

Lemma ex_wind_ok s : wind_ok ex_fx Da s.
Proof.
  unfold wind_ok. cbv zeta. split; [cbn; lra|]. split; [|intros i Hi; right; intros; reflexivity].
  intros i Hi. left. assert (i = 0)%nat by (cbn in Hi; lia). subst i. cbn [out_z out_x defineCurvature fst snd].
  unfold curv_z. change (x_precone (Da s)) with 0. rewrite deg0, cos_0, sin_0. cbn. lra.
Qed.

Lemma ex_loads_ok npi s i : 0 < s < 20 -> (i < 2)%nat -> exists o, station_dv npi ex_bq ex_fx (Da s) i = Ok o.
Proof.
  intros H Hi. pose proof (ex_phi_range s i H) as Hp. pose proof PI_RGT_0 as HP. pose proof (ex_pos i).
  destruct (ex_result npi s i H Hi) as (l & E1 & E2 & E3 & E4 & E5).
  assert (O0 : x_Omega (Da s) <> 0).
  { unfold Da, sector_design, set_azimuth, ex_D. cbn [x_Omega]. apply Rgt_not_eq, Rdiv_lt_0_compat; lra. }
  rewrite (result_rot _ _ _ _ _ (ex_phi i s)) in E1; [|reflexivity|exact O0|apply ex_solve; assumption].
  unfold station_dv. replace (reqb (x_Omega (Da s)) 0) with false by (symmetry; apply reqb_false; exact O0). cbn [negb].
  replace (rt_iterRe (rotor_d ex_fx (Da s))) with 1%nat by reflexivity. rewrite ex_solve by assumption. cbn [bind].
  unfold loads_dv, loads_dv_with, load_slope. rewrite E1. destruct (ex_wind s i Hi) as [Ex Ey].
  unfold sect_d at 1 2. cbn [s_Vx s_Vy]. rewrite Ex, Ey.
  replace (reqb s 0) with false by (symmetry; apply reqb_false; lra).
  replace (reqb (5 * INR (S i)) 0) with false by (symmetry; apply reqb_false; lra). cbn [andb negb bind].
  destruct (residualDerivatives _ _ _ _) as [[dR da] dap].
  match goal with |- context [f_afd ?a ?b ?c ?d] => destruct (f_afd a b c d) as [[[? ?] ?] ?] end.
  assert (A : 0 < ex_k s i / (1 + ex_k s i) < 1).
  { pose proof (ex_k_bound s i H). split; [apply Rdiv_lt_0_compat; lra|]. apply (Rmult_lt_reg_r (1 + ex_k s i)); [lra|]. unfold Rdiv. rewrite Rmult_assoc, Rinv_l by lra. lra. }
  match goal with |- context [orb (orb ?a ?b) ?c] => replace (orb (orb a b) c) with false; [eexists; reflexivity|symmetry; apply orb_false_intro; [apply orb_false_intro|]] end.
  - apply reqb_false. rewrite E4. assert (0 < sin (ex_phi i s)) by (apply sin_gt_0; lra). apply Rgt_not_eq. apply Rmult_lt_0_compat; [unfold ex_c; lra|apply pow_lt; lra].
  - apply reqb_false. rewrite E2, E3. unfold relativeWind_dv. cbn [rw_w]. unfold sect_d. cbn [s_Vx s_Vy]. rewrite Ex, Ey.
    replace (rleb 0 (ex_k s i / (1 + ex_k s i))) with true by (symmetry; apply rleb_true; lra).
    replace (rltb 10 (ex_k s i / (1 + ex_k s i))) with false by (symmetry; apply rltb_false; lra).
    replace (rleb 0 0) with true by (symmetry; apply rleb_true; lra).
    replace (rltb 10 0) with false by (symmetry; apply rltb_false; lra). cbn [rw_w].
    apply Rgt_not_eq. apply sqrt_lt_R0. apply Rplus_le_lt_0_compat; [apply pow2_ge_0|apply pow_lt; lra].
  - apply reqb_false. unfold sect_d. cbn [s_chord]. change (x_chord (Da s) i) with (aget [s / 10; s / 10] i). rewrite ex_chord by assumption. lra.
Qed.
End Az.

Lemma sector0 s : sector_design (ex_D s) 0 = ex_D s.
Proof.
  assert (E : degrees 0 = 0) by (unfold degrees; field; apply PI_neq0). unfold sector_design. rewrite E. reflexivity.
Qed.

Lemma mapM_ok {X Y} (f : X -> res Y) l : (forall x, In x l -> exists y, f x = Ok y) -> exists ys, mapM f l = Ok ys.
Proof.
  induction l as [|x l IH]; intros H; [eexists; reflexivity|]. destruct (H x (or_introl eq_refl)) as [y Ey].
  destruct IH as [ys Eys]; [intros; apply H; right; assumption|]. cbn [mapM]. rewrite Ey. cbn [bind]. rewrite Eys. eexists; reflexivity.
Qed.

Lemma ex_jac m npi s az : 0 < s < 20 -> exists j, loads_jac npi ex_bq (ex_fxm m) (sector_design (ex_D s) az) = Ok j.
Proof.
  intros H. unfold loads_jac. destruct (mapM_ok (station_dv npi ex_bq (ex_fxm m) (sector_design (ex_D s) az)) (seq 0 (f_n (ex_fxm m)))) as [ys E].
  { intros i Hi. apply in_seq in Hi. apply ex_loads_ok; [assumption|cbn in Hi; lia]. }
  rewrite E. eexists. reflexivity.
Qed.

Lemma ex_distributed npi s : 0 < s < 20 ->
  design_derive (f_n ex_fx) ex_D s ex_v /\ wind_ok ex_fx ex_D s /\ radial_ok (f_n ex_fx) (ex_D s) ex_v /\
  (forall i, (i < f_n ex_fx)%nat -> station_ok npi ex_bq ex_fx ex_D s i) /\
  exists o, distributed_dv npi ex_bq ex_fx (ex_D s) = Ok o.
Proof.
  intros H. split; [apply ex_derives|].
  assert (FE : (fun u => sector_design (ex_D u) 0) = ex_D) by (apply FunctionalExtensionality.functional_extensionality; intros; apply sector0).
  split; [rewrite <- FE; apply ex_wind_ok|]. split; [left; reflexivity|]. split.
  - intros i Hi. left. rewrite <- FE. apply ex_rotating; assumption.
  - destruct (ex_jac 4 npi s 0 H) as [j E]. rewrite sector0 in E. unfold distributed_dv. change ex_fx with (ex_fxm 4). rewrite E. eexists. reflexivity.
Qed.

Lemma ex_sectors m npi s l td : 0 < s < 20 -> exists td', sectors_dv npi ex_bq (ex_fxm m) (ex_D s) l td = Ok td'.
Proof.
  intros H. revert td. induction l as [|az l IH]; intros td; [eexists; reflexivity|].
  cbn [sectors_dv]. destruct (ex_jac m npi s az H) as [j E]. unfold sector_design in E. rewrite E. cbn [bind]. apply IH.
Qed.

Lemma ex_evaluate m npi s : 0 < s < 20 ->
  design_derive (f_n (ex_fxm m)) ex_D s ex_v /\ sectors_ok npi ex_bq (ex_fxm m) ex_D s ex_v /\
  (exists E, evaluate_dv npi ex_bq (ex_fxm m) (ex_D s) = Ok E) /\
  rotor_radius (ex_D s) <> 0 /\ x_Uinf (ex_D s) <> 0 /\ f_rho (ex_fxm m) <> 0.
Proof.
  intros H. split; [apply ex_derives|]. split; [|split; [|split; [|split]]].
  - split; [left; reflexivity|]. split.
    + intros rf cf wf (H1 & H2 & H3) (K1 & K2 & K3). cbn [f_n ex_fxm] in H2, H3. intros c i Hi. cbn [f_n ex_fxm Nat.add] in Hi. left.
      unfold c, out_z, defineCurvature, curv_z. cbv zeta. cbn [fst snd]. change (x_precone (ex_D s)) with 0. rewrite deg0, cos_0, sin_0.
      pose proof (H2 0%nat ltac:(lia)) as A0. pose proof (H2 1%nat ltac:(lia)) as A1. cbn in H1, H3, A0, A1.
      destruct i as [|[|[|i]]]; try lia; rewrite ?H1, ?H3, ?A0, ?A1; lra.
    + intros az _ Da. split; [apply ex_wind_ok|]. intros i Hi. split; [left; apply ex_rotating; assumption|].
      intros l El. destruct (ex_result az npi s i H Hi) as (l' & E1 & _ & _ & _ & E5). assert (l' = l) by (assert (Q : Ok l' = Ok l) by (rewrite <- E1; exact El); injection Q; auto). subst l'.
      rewrite E5. pose proof (ex_phi_range s i H). pose proof PI_RGT_0. assert (0 < sin (ex_phi i s)) by (apply sin_gt_0; lra).
      apply Rgt_not_eq, pow_lt. assumption.
  - unfold evaluate_dv. destruct (ex_sectors m npi s (azimuths (f_nSector (ex_fxm m))) totd0 H) as [td E]. rewrite E. eexists. reflexivity.
  - unfold rotor_radius. cbn. rewrite deg0, cos_0, sin_0. lra.
  - cbn. lra.
  - cbn. lra.
Qed.
