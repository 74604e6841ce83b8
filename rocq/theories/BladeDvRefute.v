(** Concrete calls that refute C39, C40 and C41. *)
From Coquelicot Require Import Coquelicot.
From Coq Require Import Reals Bool Arith List Lra Lia.
From Verif Require Import Prelim Num Bem BemGeomSpec IndSpec DiffSpec BemDiff DeriveLib Blade BladeDiff BladeDiffSpec
  StationDvProofs BladeDvProofs EvalDvProofs BladeDvExample.
Import ListNotations.
Open Scope R_scope.

(** ** C39: cl = Re, cd constant, phi = 90 degrees, Vx = 4, Vy = 3 *)
Definition re_rotor : rotor R := mkRotor (1 / 2) 3 1 1 1 ex_opts 1 0.
Definition re_af : airfoil R := fun _ Re => (Re, 8 * PI / 3).
Definition re_afd : airfoil_dv := fun _ _ => (0, 1, 0, 0).
Definition re_x (y : R) (k : nat) : R := nth k [PI / 2; 1; 0; 4; y; 1; 1 / 2; 3; 0] 0.

Lemma re_smooth al Re : smooth_airfoil re_af re_afd al Re.
Proof.
  unfold smooth_airfoil, re_afd, re_af. cbn [fst snd].
  assert (Z : forall (e : posreal) x y u v z, z = 0 -> Rabs z <= e * Rmax (Rabs (u - x)) (Rabs (v - y))).
  { intros e x y u v z ->. rewrite Rabs_R0. apply Rmult_le_pos; [left; apply cond_pos|].
    eapply Rle_trans; [apply Rabs_pos|apply Rmax_l]. }
  split; intros e; exists (mkposreal 1 Rlt_0_1); intros u v _ _; apply Z; ring.
Qed.

Lemma re_pass y : 0 < y -> bem_pass (rotor_at re_rotor (re_x y)) (sect_at re_af (re_x y)) (PI / 2) 0 0 =
  (1 / (1 - 1 / 4), 1 / 4, 0, sqrt (16 + y ^ 2), 8 * PI / 3).
Proof.
  intros Hy. pose proof PI_RGT_0 as HP.
  unfold bem_pass, relativeWind, rotor_at, sect_at, re_x. cbn [nth s_r s_chord s_theta s_af s_Vx s_Vy rt_pitch rt_rho rt_mu rt_opts rt_B rt_Rhub rt_Rtip re_rotor].
  cbn [nlt nle ofR R_arith ndiv nsub nmul nadd nabs nsqrt nsin ncos].
  rewrite Rabs_R0. replace (rltb 10 0) with false by (symmetry; apply rltb_false; lra).
  replace (1 * sqrt (4 * (1 - 0) * (4 * (1 - 0)) + y * (1 + 0) * (y * (1 + 0))) * 1 / 1) with (sqrt (16 + y ^ 2))
    by (replace (4 * (1 - 0) * (4 * (1 - 0)) + y * (1 + 0) * (y * (1 + 0))) with (16 + y ^ 2) by ring; field).
  unfold re_af. set (Re := sqrt (16 + y ^ 2)). cbv beta iota.
  unfold inductionFactors. cbn [wakerotation ex_opts negb].
  assert (Ek : l_k (bem_locals ex_opts 1 1 1 (1 / 2) 3 (PI / 2) Re (8 * PI / 3)) = 1 / 3).
  { unfold bem_locals, ex_opts. cbn [l_k useCd hubLoss tipLoss negb nadd nsub nmul ndiv nsin ncos ofR R_arith INR].
    rewrite sin_PI2, cos_PI2. field. lra. }
  rewrite Ek. cbn [nlt nle ofR R_arith ndiv nsub nmul nadd].
  replace (rltb 0 (PI / 2)) with true by (symmetry; apply rltb_true; lra).
  unfold axial_pos. cbn [nlt nle ofR R_arith ndiv nsub nmul nadd].
  replace (rleb (1 / 3) (2 / 3)) with true by (symmetry; apply rleb_true; lra).
  change (l_sphi _) with (sin (PI / 2)). change (l_cphi _) with (cos (PI / 2)). rewrite sin_PI2, cos_PI2.
  f_equal. f_equal. f_equal. f_equal; field; lra.
Qed.

Definition re_load (y : R) : sload R :=
  let W := sqrt ((4 * (1 - 1 / 4)) * (4 * (1 - 1 / 4)) + (y * (1 + 0)) * (y * (1 + 0))) in
  let cn := sqrt (16 + y ^ 2) * cos (PI / 2) + 8 * PI / 3 * sin (PI / 2) in
  let ct := sqrt (16 + y ^ 2) * sin (PI / 2) - 8 * PI / 3 * cos (PI / 2) in
  let q := 1 / 2 * 1 * (W * W) in
  mkLoad (1 / 4) 0 (cn * q * 1) (ct * q * 1) (rad2deg (PI / 2 - (0 + 0))) (sqrt (16 + y ^ 2)) (8 * PI / 3) cn ct q W (1 * W * 1 / 1).

Lemma re_loads y : 0 < y -> loads (rotor_at re_rotor (re_x y)) (PI / 2) true (sect_at re_af (re_x y)) = Ok (re_load y).
Proof.
  intros Hy. unfold loads. cbn [s_Vx s_Vy sect_at neq ofR R_arith]. change (re_x y 3%nat) with 4. change (re_x y 4%nat) with y.
  replace (reqb 4 0) with false by (symmetry; apply reqb_false; lra).
  replace (reqb y 0) with false by (symmetry; apply reqb_false; lra). cbn [andb negb].
  unfold runBEM. cbn [rotor_at rt_iterRe re_rotor]. unfold bem_loop. cbn [ofR R_arith].
  change (mkSect (re_x y 5%nat) (re_x y 1%nat) (re_x y 2%nat) re_af 4 y) with (sect_at re_af (re_x y)).
  change (mkRotor (re_x y 6%nat) (re_x y 7%nat) (rt_B re_rotor) (rt_rho re_rotor) (rt_mu re_rotor) (rt_opts re_rotor) 1 (re_x y 8%nat))
    with (rotor_at re_rotor (re_x y)).
  rewrite re_pass by exact Hy. cbn [bind]. unfold relativeWind. cbn [nlt ofR R_arith ndiv nsub nmul nadd nabs nsqrt nsin ncos].
  rewrite Rabs_R0, Rabs_right by lra.
  replace (rltb 10 (1 / 4)) with false by (symmetry; apply rltb_false; lra).
  replace (rltb 10 0) with false by (symmetry; apply rltb_false; lra). reflexivity.
Qed.

Lemma re_W y : sqrt ((4 * (1 - 1 / 4)) * (4 * (1 - 1 / 4)) + (y * (1 + 0)) * (y * (1 + 0))) = sqrt (9 + y ^ 2).
Proof. f_equal. field. Qed.

Lemma re_Tp y : 0 < y -> station_Tp re_rotor true re_af (re_x y) = 1 / 2 * (sqrt (16 + y ^ 2) * (9 + y ^ 2)).
Proof.
  intros Hy. unfold station_Tp. change (re_x y 0%nat) with (PI / 2). rewrite re_loads by exact Hy. unfold Tp_of, re_load. cbn [o_Tp].
  rewrite re_W, sin_PI2, cos_PI2, sqrt_sqrt by nra. field.
Qed.

Lemma re_sqrts : sqrt (16 + 3 ^ 2) = 5 /\ 0 < sqrt (9 + 3 ^ 2) < 5 /\ sqrt (9 + 3 ^ 2) * sqrt (9 + 3 ^ 2) = 18.
Proof.
  split; [replace (16 + 3 ^ 2) with (5 * 5) by ring; apply sqrt_square; lra|].
  split; [split; [apply sqrt_lt_R0; lra|]|rewrite sqrt_sqrt by lra; lra].
  replace 5 with (sqrt (5 * 5)) by (apply sqrt_square; lra). apply sqrt_lt_1; lra.
Qed.

Lemma re_da : snd (fst (residualDerivatives (rotor_at re_rotor (re_x 3)) (PI / 2) (sect_at re_af (re_x 3)) re_afd)) 4%nat = 0 /\
  snd (residualDerivatives (rotor_at re_rotor (re_x 3)) (PI / 2) (sect_at re_af (re_x 3)) re_afd) 4%nat = 0.
Proof.
  pose proof PI_RGT_0 as HP. unfold residualDerivatives. destruct (relativeWind _ _ _ _ _ _ _ _ _ _) as [[al W] Re].
  change (s_af (sect_at re_af (re_x 3)) al Re) with (Re, 8 * PI / 3). change (re_afd al Re) with (0, 1, 0, 0). cbv beta iota zeta. cbn [fst snd].
  unfold inductionFactors_dv. cbn [rt_opts rotor_at re_rotor wakerotation ex_opts negb].
  replace (rltb 0 (PI / 2)) with true by (symmetry; apply rltb_true; lra).
  unfold axial_pos_dv. set (L := bem_locals_dv _ _ _ _ _ _ _ _ _ _ _ _ _ _ _ _).
  assert (Ek : v_k L = 1 / 3).
  { unfold L, bem_locals_dv, ex_opts. cbn [v_k useCd hubLoss tipLoss negb INR]. cbn. rewrite sin_PI2, cos_PI2. field. lra. }
  assert (Ed : v_kd L 4%nat = 0).
  { unfold L, bem_locals_dv, ex_opts. cbn [v_kd useCd hubLoss tipLoss negb INR]. cbn. rewrite sin_PI2, cos_PI2. unfold Rdiv. ring. }
  rewrite Ek. replace (rleb (1 / 3) (2 / 3)) with true by (symmetry; apply rleb_true; lra). cbn [iv_ad iv_apd]. rewrite Ed.
  split; [field|reflexivity].
Qed.

Lemma re_loads_dv : exists dNp dTp dR,
  loads_dv (rotor_at re_rotor (re_x 3)) (PI / 2) true (sect_at re_af (re_x 3)) re_afd = Ok (re_load 3, dNp, dTp, dR) /\
  dTp 4%nat = 3 / 2 * (sqrt (9 + 3 ^ 2) + 10).
Proof.
  pose proof PI_RGT_0 as HP. destruct re_sqrts as (W5 & Wb & W2). destruct re_da as [Da Dap].
  unfold loads_dv, loads_dv_with, load_slope. rewrite (re_loads 3) by lra. cbn [s_Vx s_Vy sect_at]. change (re_x 3 3%nat) with 4. change (re_x 3 4%nat) with 3.
  replace (reqb 4 0) with false by (symmetry; apply reqb_false; lra).
  replace (reqb 3 0) with false by (symmetry; apply reqb_false; lra). cbn [andb negb bind].
  change (mkSect (re_x 3 5%nat) (re_x 3 1%nat) (re_x 3 2%nat) re_af 4 3) with (sect_at re_af (re_x 3)).
  destruct (residualDerivatives _ _ _ _) as [[dR da] dap]. cbn [fst snd] in Da, Dap.
  unfold relativeWind_dv. change (o_a (re_load 3)) with (1 / 4). change (o_ap (re_load 3)) with 0.
  replace (rleb 0 (1 / 4)) with true by (symmetry; apply rleb_true; lra).
  replace (rleb 0 0) with true by (symmetry; apply rleb_true; lra).
  replace (rltb 10 (1 / 4)) with false by (symmetry; apply rltb_false; lra).
  replace (rltb 10 0) with false by (symmetry; apply rltb_false; lra). cbn [rw_w rw_wd rw_alpha rw_alphad rw_re rw_red].
  unfold re_afd. cbv beta iota.
  assert (EW : sqrt ((4 * (1 - 1 / 4)) ^ 2 + (3 * (1 + 0)) ^ 2) = sqrt (9 + 3 ^ 2)) by (f_equal; field).
  rewrite EW.
  match goal with |- context [if orb (orb ?a ?b) ?c then _ else _] => replace (orb (orb a b) c) with false end.
  2:{ symmetry. apply orb_false_intro; [apply orb_false_intro|]; apply reqb_false.
      - unfold re_load. cbn [o_cn]. rewrite sin_PI2, cos_PI2. lra.
      - lra.
      - cbn. lra. }
  do 3 eexists. split; [reflexivity|]. cbv beta. unfold re_load. cbn [o_Tp o_ct o_cl o_cd s_chord].
  rewrite re_W, sin_PI2, cos_PI2, Da, Dap, W5, W2. unfold eye. cbn [Nat.eqb]. change (re_x 3 1%nat) with 1.
  replace (reqb ((4 * (1 - 1 / 4)) ^ 2 + (3 * (1 + 0)) ^ 2) 0) with false by (symmetry; apply reqb_false; lra).
  set (W := sqrt (9 + 3 ^ 2)) in *. cbn [rt_rho rt_mu rotor_at re_rotor].
  change (s_chord (sect_at re_af (re_x 3))) with 1.
  match goal with |- ?u = _ => replace u with (18 * (3 / 2) / W + 270 / (W * W)) by (field; lra) end.
  replace (270 / (W * W)) with 15 by (rewrite W2; field). rewrite <- W2. field. lra.
Qed.

Lemma re_true_rate : is_derive (fun y => station_Tp re_rotor true re_af (re_x y)) 3 (1 / 2 * (3 / 5 * 18 + 5 * 6)).
Proof.
  destruct re_sqrts as (W5 & _).
  apply (is_derive_ext_loc (fun y => 1 / 2 * (sqrt (16 + y ^ 2) * (9 + y ^ 2)))).
  - apply (locally_interval _ 3 0 4); try (cbn; lra). intros y H1 H2. cbn in H1, H2. symmetry. apply re_Tp. lra.
  - der; [lra|]. rewrite W5. field.
Qed.

(** Everything C38 asks for, except re_free, holds here; the reported Tp derivative is not the gradient. *)
Lemma re_refuted : exists rt af afd x l dNp dTp dR,
  rt_iterRe rt = 1%nat /\ regular_station rt af afd x /\ (forall al Re, smooth_airfoil af afd al Re) /\
  loads_dv (rotor_at rt x) (x 0%nat) true (sect_at af x) afd = Ok (l, dNp, dTp, dR) /\
  wind_branch (x 0%nat) (o_a l) (o_ap l) (x 3%nat) (x 4%nat) /\ o_cn l <> 0 /\ o_ct l <> 0 /\
  ~ gradient 9 (station_Tp rt true af) x dTp.
Proof.
  destruct re_loads_dv as (dNp & dTp & dR & E & ET). pose proof PI_RGT_0 as HP. destruct re_sqrts as (W5 & Wb & W2).
  exists re_rotor, re_af, re_afd, (re_x 3), (re_load 3), dNp, dTp, dR. split; [reflexivity|]. split; [|split; [|split; [|split; [|split; [|split]]]]].
  - unfold regular_station. split; [cbn; lra|]. split; [cbn; lra|]. split; [cbn; lra|]. split; [cbn; lra|]. split; [apply re_smooth|].
    unfold re_af. unfold regular_ind. change (re_x 3 5%nat) with 1. change (re_x 3 1%nat) with 1. change (re_x 3 0%nat) with (PI / 2).
    cbn [rt_opts re_rotor rt_B]. rewrite sin_PI2. split; [lra|]. split; [lra|]. split; [split; intros X; discriminate X|].
    split; [|intros X; discriminate X]. left. split; [lra|].
    assert (Ek : forall Re, loading ex_opts 1 1 1 (re_x 3 6%nat) (re_x 3 7%nat) (PI / 2) Re (8 * PI / 3) = 1 / 3).
    { intros Re. unfold loading, solidity, coef_n, lossF, ex_opts. cbn [useCd hubLoss tipLoss INR]. rewrite sin_PI2, cos_PI2. field. lra. }
    rewrite Ek. lra.
  - apply re_smooth.
  - exact E.
  - right. right. cbn [re_load o_a o_ap]. rewrite Rabs_R0, Rabs_right by lra. split; [lra|]. split; [lra|]. left. cbn. lra.
  - unfold re_load. cbn [o_cn]. rewrite sin_PI2, cos_PI2. lra.
  - unfold re_load. cbn [o_ct]. rewrite sin_PI2, cos_PI2, W5. lra.
  - intros G. specialize (G (fun k y => re_x y k) 3 (eye 4) (fun i _ => eq_refl)).
    assert (HX : curves_derive 9 (fun k y => re_x y k) 3 (eye 4)).
    { intros i Hi. unfold re_x. do 9 (destruct i as [|i]; [cbn; (apply d_const || apply d_id)|]). lia. }
    specialize (G HX). assert (U : inner 9 dTp (eye 4) = 1 / 2 * (3 / 5 * 18 + 5 * 6)).
    { rewrite <- (is_derive_unique _ _ _ G). apply is_derive_unique. exact re_true_rate. }
    cbn [inner eye Nat.eqb] in U. rewrite ET in U. nra.
Qed.

(** ** C40: two stations, the second one bent out of the plane *)
Definition bent_fx : fixed := mkFixed 2 (fun _ => ex_af) (fun _ => ex_afd) 1 1 1 ex_opts 1 1.
Definition bent (r0 : R) : design :=
  mkDesign (fun i => nth i [r0; 2] 0) (fun _ => 1) (fun _ => 0) (fun i => nth i [0; 1] 0) (fun _ => 0)
    0 0 90 (1 / 10) 3 1 0 0 0 0 1 0 0.
Lemma bent_Vx r0 : r0 < 2 -> fst (wind_d bent_fx (bent r0)) 1%nat = 1 / sqrt (1 + Rsqr (- 1 / (2 - r0))).
Proof.
  intros H. unfold wind_d, windComponents, bent, bent_fx, defineCurvature.
  cbn [f_n x_r x_chord x_theta x_precurve x_presweep x_precone x_tilt x_hubHt x_Rhub x_Rtip x_precurveTip x_presweepTip x_yaw x_shear x_azimuth x_Uinf x_Omega x_pitch fst snd].
  rewrite deg0, sin_0, cos_0. unfold rpow. replace (reqb 0 0) with true by (symmetry; apply reqb_true; reflexivity).
  assert (C : curv_cone 2 (curv_x (fun i => nth i [r0; 2] 0) (fun i => nth i [0; 1] 0) 0) (curv_z (fun i => nth i [r0; 2] 0) (fun i => nth i [0; 1] 0) 0) 1%nat = atan (- 1 / (2 - r0))).
  { unfold curv_cone, curv_x, curv_z, atan2. rewrite cos_0, sin_0. cbn [Nat.eqb Nat.sub nth].
    replace (rltb 0 _) with true by (symmetry; apply rltb_true; lra). f_equal. field. lra. }
  rewrite C, cos_atan. field. assert (0 <= Rsqr (- 1 / (2 - r0))) by apply Rle_0_sqr. apply Rgt_not_eq, sqrt_lt_R0. lra.
Qed.
Lemma bent_refuted : exists fx d d', f_n fx = 2%nat /\ x_r d 1%nat = x_r d' 1%nat /\ d' = with_rps d (x_r d') (x_presweep d) /\
  fst (wind_d fx d) 1%nat <> fst (wind_d fx d') 1%nat.
Proof.
  exists bent_fx, (bent 1), (bent 0). split; [reflexivity|]. split; [reflexivity|]. split; [reflexivity|].
  rewrite !bent_Vx by lra. intros E.
  assert (A : 0 < sqrt (1 + Rsqr (- 1 / (2 - 1)))) by (apply sqrt_lt_R0; pose proof (Rle_0_sqr (- 1 / (2 - 1))); lra).
  assert (B : 0 < sqrt (1 + Rsqr (- 1 / (2 - 0)))) by (apply sqrt_lt_R0; pose proof (Rle_0_sqr (- 1 / (2 - 0))); lra).
  assert (E' : sqrt (1 + Rsqr (- 1 / (2 - 1))) = sqrt (1 + Rsqr (- 1 / (2 - 0)))).
  { apply (f_equal Rinv) in E. unfold Rdiv in E. rewrite !Rmult_1_l, !Rinv_inv in E. exact E. }
  apply sqrt_inj in E'; unfold Rsqr in *; lra.
Qed.
Lemma dr_diagonal npi bq fx d Np Tp dNp dTp : distributed_dv npi bq fx d = Ok (Np, Tp, dNp, dTp) ->
  forall i j, i <> j -> l_dr dNp i j = 0 /\ l_dr dTp i j = 0.
Proof.
  unfold distributed_dv. destruct (loads_jac npi bq fx d) as [J|e]; [|discriminate]. cbn [bind]. intros H i j N.
  destruct (ok4_inj _ _ _ _ _ _ _ _ H) as (_ & _ & <- & <-). unfold load_dict, diag. cbn [l_dr].
  apply Nat.eqb_neq in N. rewrite N. split; reflexivity.
Qed.

(** ** C41 *)
Definition with_iterRe (m : nat) (fx : fixed) : fixed :=
  mkFixed (f_n fx) (f_af fx) (f_afd fx) (f_B fx) (f_rho fx) (f_mu fx) (f_opts fx) m (f_nSector fx).

Lemma pass_free (rt : rotor R) (sc : sect R) (phi a ap a' ap' : R) : re_free (s_af sc) -> bem_pass rt sc phi a ap = bem_pass rt sc phi a' ap'.
Proof.
  intros Hf. unfold bem_pass. destruct (relativeWind phi a ap _ _ _ _ _ _ _) as [[al W] Re] eqn:E.
  destruct (relativeWind phi a' ap' _ _ _ _ _ _ _) as [[al' W'] Re'] eqn:E'.
  assert (al = phi - (s_theta sc + rt_pitch rt)) by (apply (f_equal (fun p => fst (fst p))) in E; symmetry; exact E).
  assert (al' = phi - (s_theta sc + rt_pitch rt)) by (apply (f_equal (fun p => fst (fst p))) in E'; symmetry; exact E').
  subst al al'. rewrite (Hf _ Re Re'). reflexivity.
Qed.
Lemma loop_free (rt : rotor R) (sc : sect R) (phi : R) m : re_free (s_af sc) -> bem_loop rt sc phi m = bem_pass rt sc phi 0 0.
Proof.
  intros Hf. destruct m as [|m]; [reflexivity|]. cbn [bem_loop]. destruct (bem_loop rt sc phi m) as [[[[fz a] ap] cl] cd].
  apply pass_free. exact Hf.
Qed.
Lemma errf_free fx D i m : re_free (f_af fx i) ->
  errf (rotor_d (with_iterRe (S m) fx) D) (sect_d fx D i) m = errf (rotor_d (with_iterRe 1 fx) D) (sect_d fx D i) 0.
Proof.
  intros Hf. apply FunctionalExtensionality.functional_extensionality. intros phi. unfold errf. rewrite loop_free by exact Hf. reflexivity.
Qed.
Lemma loads_free fx D i m phi rot : re_free (f_af fx i) ->
  loads (rotor_d (with_iterRe (S m) fx) D) phi rot (sect_d fx D i) = loads (rotor_d (with_iterRe 1 fx) D) phi rot (sect_d fx D i).
Proof.
  intros Hf. unfold loads, runBEM.
  change (rt_iterRe (rotor_d (with_iterRe (S m) fx) D)) with (S m). change (rt_iterRe (rotor_d (with_iterRe 1 fx) D)) with 1%nat.
  cbv iota. rewrite !loop_free by exact Hf. reflexivity.
Qed.
Lemma station_free npi bq fx D i m : re_free (f_af fx i) ->
  station_dv npi bq (with_iterRe (S m) fx) D i = station_dv npi bq (with_iterRe 1 fx) D i.
Proof.
  intros Hf. unfold station_dv.
  change (rt_iterRe (rotor_d (with_iterRe (S m) fx) D)) with (S m). change (rt_iterRe (rotor_d (with_iterRe 1 fx) D)) with 1%nat.
  change (sect_d (with_iterRe (S m) fx) D i) with (sect_d fx D i). change (sect_d (with_iterRe 1 fx) D i) with (sect_d fx D i).
  cbv iota. rewrite (errf_free fx D i m Hf).
  change (f_afd (with_iterRe (S m) fx) i) with (f_afd fx i). change (f_afd (with_iterRe 1 fx) i) with (f_afd fx i).
  assert (E : forall phi rot, loads_dv (rotor_d (with_iterRe (S m) fx) D) phi rot (sect_d fx D i) (f_afd fx i) =
    loads_dv (rotor_d (with_iterRe 1 fx) D) phi rot (sect_d fx D i) (f_afd fx i)).
  { intros. unfold loads_dv, loads_dv_with, load_slope. rewrite (loads_free fx D i m phi rot Hf). reflexivity. }
  match goal with |- bind ?u _ = _ => destruct u as [phi|e]; [|reflexivity] end. cbn [bind]. apply E.
Qed.
(** Reynolds-independent airfoils: the call answers exactly as with iterRe = 1. *)
Lemma distributed_free npi bq fx D m : (forall i, re_free (f_af fx i)) ->
  distributed_dv npi bq (with_iterRe (S m) fx) D = distributed_dv npi bq (with_iterRe 1 fx) D.
Proof.
  intros Hf. unfold distributed_dv, loads_jac.
  assert (E : station_dv npi bq (with_iterRe (S m) fx) D = station_dv npi bq (with_iterRe 1 fx) D)
    by (apply FunctionalExtensionality.functional_extensionality; intros; apply station_free; apply Hf).
  rewrite E. reflexivity.
Qed.
Lemma iterRe_refuted npi m : (2 <= m)%nat -> exists bq fx d out, f_iterRe fx = m /\ distributed_dv npi bq fx d = Ok out.
Proof.
  intros Hm. destruct m as [|m]; [lia|]. destruct (ex_distributed npi 10 ltac:(lra)) as (_ & _ & _ & _ & out & E).
  exists ex_bq, (with_iterRe (S m) ex_fx), (ex_D 10), out. split; [reflexivity|].
  rewrite distributed_free; [exact E|]. intros i al Re Re'. reflexivity.
Qed.
