(** A two-station rotor of drag-only sections on which everything can be computed (C26-C30). *)
From Coquelicot Require Import Coquelicot.
From Coq Require Import Reals Bool Arith List Lra Lia.
From Verif Require Import Prelim Cont Num Bem BemGeomProofs Interp Blade BladeSpec FlProofs IndSpec IndProofs.
From Verif Require Import StationProofs StationWitness StationLoads StationExist BladeProofs SectorProofs InterpSpec ConstructProofs.
Import ListNotations.
Open Scope R_scope.

(** cl = 0, cd = 1 at every angle. *)
Definition drag_af : airfoil fl := fun _ _ => (Fin 0, Fin 1).

(** Two blades, stations at 1 and 2, radius 3, no corrections. *)
Definition d_args : args :=
  mkArgs [1; 2] [1; 1] [0; 0] [drag_af; drag_af] (1 / 2) 3 2 1 1 0 0 0 0 80 8 None 0 None 0 off 1.

Lemma drag_loading B r chord Rhub Rtip phi : loading off B r chord Rhub Rtip phi 0 1 = 0.
Proof. unfold loading, coef_n. cbn [useCd off]. unfold Rdiv. ring. Qed.

Lemma drag_lossF B r Rhub Rtip phi : lossF off B r Rhub Rtip phi = 1.
Proof. unfold lossF. cbn. ring. Qed.

Lemma axial_zero : axial_pos 0 1 = 0.
Proof. rewrite axial_pos_R. rb_if; [unfold Rdiv; ring|lra]. Qed.

Lemma drag_ind B r chord Rhub Rtip phi Vx Vy : inside B r Rhub Rtip phi ->
  inductionFactors off B r chord Rhub Rtip phi 0 1 Vx Vy = (sin phi - cos phi / (Vy / Vx), 0, 0).
Proof.
  intros H. rewrite ind_pos by assumption. cbn [wakerotation off]. rewrite drag_loading, drag_lossF, axial_zero.
  repeat apply (f_equal2 pair); try reflexivity. replace (1 - 0) with 1 by ring. rewrite Rmult_1_r. unfold Rdiv. rewrite Rinv_1. ring.
Qed.

Lemma drag_station npi bq B r chord t p Vx Vy Rhub Rtip rho mu :
  3 < npi < PI -> root_inside bq -> accepts_sign_change bq -> (1 <= B)%nat -> 0 < Rhub < r -> r < Rtip ->
  0 < chord -> 0 < rho -> mu <> 0 -> 0 < Vx <= Vy ->  Vx / Vy >= 1 / 1000 ->
  exists l Np Tp, solve_station npi bq (mkRotor (Fin Rhub) (Fin Rtip) B (Fin rho) (Fin mu) off 1 (Fin p)) true
      (mkSect (Fin r) (Fin chord) (Fin t) drag_af (Fin Vx) (Fin Vy)) = Ok l /\
    rep (o_Np l) Np /\ 0 < Np /\ rep (o_Tp l) Tp /\ rep (o_a l) 0 /\ rep (o_ap l) 0 /\ rep (o_W l) (sqrt (Vx ^ 2 + Vy ^ 2)).
Proof.
  intros Hn Hb1 Hb2 HB Hh Ht Hc Hrho Hmu HV Hq.
  set (rt := mkRotor (Fin Rhub) (Fin Rtip) B (Fin rho) (Fin mu) off 1 (Fin p)).
  set (sc := mkSect (Fin r) (Fin chord) (Fin t) drag_af (Fin Vx) (Fin Vy)).
  assert (Haf : computes (s_af sc) (fun _ _ => 0) (fun _ _ => 1)).
  { intros al' Re' al Re _ _. split; reflexivity. }
  assert (HVq : Vx / Vy <= 1).
  { apply Rmult_le_reg_r with Vy; [lra|]. replace (Vx / Vy * Vy) with Vx by (field; lra). lra. }
  assert (Hin : forall phi, 0 < phi < PI -> inside B r Rhub Rtip phi) by (intros; unfold inside; auto).
  assert (RR : forall phi, 0 < phi < PI -> cos phi <> 0 -> rep (errf rt sc 0 (Fin phi)) (sin phi - Vx / Vy * cos phi)).
  { intros phi Hphi Hcs.
    pose proof (residual_rep rt sc r chord t Vx Vy Rhub Rtip rho mu p (fun _ _ => 0) (fun _ _ => 1) phi
      (rep_Fin _) (rep_Fin _) (rep_Fin _) (rep_Fin _) (rep_Fin _) (rep_Fin _) (rep_Fin _) (rep_Fin _) (rep_Fin _) (rep_Fin _)
      Haf Hmu ltac:(lra) ltac:(lra) (Hin phi Hphi) Hcs) as H. cbv zeta in H.
    change (rt_opts rt) with off in H. change (rt_B rt) with B in H.
    rewrite drag_loading in H. specialize (H ltac:(lra)). rewrite drag_ind in H by auto.
    unfold out_fzero in H. cbn [fst] in H.
    replace (sin phi - Vx / Vy * cos phi) with (sin phi - cos phi / (Vy / Vx)) by (field; lra). exact H. }
  assert (HS : exists v, solve npi bq (errf rt sc 0) = Ok (Fin v) /\ 1 / 1000000 <= v <= npi / 2).
  { destruct (solve_succeeds npi bq rt sc r chord t Vx Vy Rhub Rtip rho mu p (fun _ _ => 0) (fun _ _ => 1)) as (v & H1 & H2 & _);
      try assumption; try apply rep_Fin; try lra.
    - intros. apply continuous_const.
    - intros. apply continuous_const.
    - cbv zeta. change (rt_opts rt) with off. intros. rewrite drag_loading. lra.
    - right. destruct eps_trig as ((S0 & S1) & C0 & C1). unfold eps in *. destruct (half_trig npi Hn) as ((C2 & C3) & S2 & S3).
      pose proof PI2_1. split.
      + eapply rep_neg_sign; [apply RR; lra|]. nra.
      + eapply rep_pos; [apply RR; lra|]. nra.
    - eauto. }
  destruct HS as (v & HS & Hv). destruct (bracket_trig npi v Hn Hv) as [Hv2 Hv3].
  unfold solve_station. change (rt_iterRe rt) with 1%nat. cbv iota. rewrite HS. cbn [bind].
  destruct (loads_ok rt (Fin v) true sc 0 eq_refl) as (l0 & EL). rewrite EL. cbn [bind].
  assert (HL : rep (o_cl l0) 0 /\ rep (o_cd l0) 1 /\ rep (o_W l0) (sqrt (Vx ^ 2 + Vy ^ 2)) /\ rep (o_a l0) 0 /\ rep (o_ap l0) 0).
  { unfold loads in EL. cbn [sc s_Vx s_Vy neq ofR fl_arith] in EL.
    assert (E1 : feq (Fin Vx) (Fin 0) = false) by (cbn; apply reqb_false; lra).
    assert (E2 : feq (Fin Vy) (Fin 0) = false) by (cbn; apply reqb_false; lra).
    rewrite E1, E2 in EL. cbn [negb andb] in EL. apply bind_ok in EL. destruct EL as ((((a & ap) & cl) & cd) & E & EL).
    apply bind_ok in E. destruct E as (((((fz & a') & ap') & cl') & cd') & E & E3). apply ok_inj in E3. injection E3; intros; subst a' ap' cl' cd'.
    unfold runBEM in E. change (rt_iterRe rt) with 1%nat in E. cbv iota in E. apply ok_inj in E. cbn [bem_loop] in E.
    unfold bem_pass in E. destruct (relativeWind _ _ _ _ _ _ _ _ _ _) as ((al0 & W0) & Re0) in E.
    cbn [s_af sc drag_af] in E.
    destruct (ind_transfer off B r chord Rhub Rtip v 0 1 Vx Vy (sin v - cos v / (Vy / Vx)) 0 0) as (f' & x' & xp' & E' & _ & Ra & Rap).
    - apply Hin; assumption.
    - lra.
    - lra.
    - lra.
    - rewrite drag_loading. lra.
    - discriminate.
    - apply drag_ind. apply Hin; assumption.
    - change (s_r sc) with (Fin r) in E. change (s_chord sc) with (Fin chord) in E. change (s_Vx sc) with (Fin Vx) in E.
      change (s_Vy sc) with (Fin Vy) in E. change (rt_Rhub rt) with (Fin Rhub) in E. change (rt_Rtip rt) with (Fin Rtip) in E.
      change (rt_opts rt) with off in E. change (rt_B rt) with B in E. unfold drag_af in E. cbv beta iota in E. rewrite E' in E.
      injection E; intros; subst cd cl ap a fz.
      unfold relativeWind in EL. cbv beta iota zeta in EL. apply ok_inj in EL. rewrite <- EL. cbn [o_cl o_cd o_W o_a o_ap].
      split; [apply rep_Fin|]. split; [apply rep_Fin|]. split; [|split; assumption].
      cbn [nmul ndiv nsub nadd nopp nabs nsqrt nle nlt ofR fl_arith].
      assert (N : forall x, rep x 0 -> flt (Fin 10) (fabs x) = false).
      { intros x Hx. unfold rep in Hx. destruct x; try discriminate; cbn in *.
        - injection Hx; intros ->. rewrite Rabs_R0. apply rltb_false; lra.
        - try (apply rltb_false; lra). }
      rewrite (N _ Ra), (N _ Rap).
      replace (Vx ^ 2 + Vy ^ 2) with (Vx * (1 - 0) * (Vx * (1 - 0)) + Vy * (1 + 0) * (Vy * (1 + 0))) by ring.
      apply rep_sqrt; [reps|]. nra. }
  destruct HL as (H1 & H2 & H3 & H4 & H5).
  destruct (loads_resolve rt v true sc l0 t p chord rho 0 1 _ (rep_Fin t) (rep_Fin p) (rep_Fin chord) (rep_Fin rho) EL H1 H2 H3)
    as [EZ|(_ & _ & _ & _ & RN & RT)].
  - exfalso. subst l0. cbn in H2. unfold rep in H2. cbn in H2. injection H2; lra.
  - unfold resolve in RN, RT. cbn [fst snd] in RN, RT.
    unfold nan_guard. rewrite (rep_isnan _ _ RN). exists l0. do 2 eexists. split; [reflexivity|]. split; [exact RN|]. split; [|split; [exact RT|]; split; [exact H4|]; split; [exact H5|exact H3]].
    unfold dynamic_pressure. assert (0 < sin v) by (apply sin_gt_0; lra).
    assert (0 < sqrt (Vx ^ 2 + Vy ^ 2)) by (apply sqrt_lt_R0; nra).
    rewrite Rmult_0_l, Rplus_0_l, Rmult_1_l. apply Rmult_lt_0_compat; [|assumption].
    apply Rmult_lt_0_compat; [|assumption]. apply Rmult_lt_0_compat; [|lra]. apply Rmult_lt_0_compat; [assumption|].
    apply pow_lt; assumption.
Qed.

(** The object built from [d_args]. *)
Definition d_blade : blade :=
  mkBlade [1; 2] [1; 1] [Fin 0; Fin 0] [drag_af; drag_af] (1 / 2) 3 2 1 1 0 0 0 0 80 off 1
    [0; 0] 0 [0; 0] 0 3 1 false [] [] [] 0.

Lemma d_increasing : increasing [1; 2].
Proof. intros [|[|i]] [|[|j]] Hij; simpl in *; lra || lia. Qed.

Lemma radians_0 : radians 0 = 0.
Proof. apply radians_zero. reflexivity. Qed.

Lemma d_construct : construct d_args = Ok d_blade.
Proof.
  unfold construct. cbn [g_r d_args length Nat.ltb Nat.leb g_precurve g_presweep map curve_error tip_error Nat.eqb andb negb].
  cbn [d_args g_chord g_theta g_af g_Rhub g_Rtip g_B g_rho g_mu g_precone g_tilt g_yaw g_shearExp g_hubHt g_nSector g_precurveTip
       g_presweepTip g_opts g_iterRe hd last map].
  rewrite !radians_0, cos_0, sin_0.
  pose proof (interp_zeros d_args d_increasing ltac:(simpl; lia) (nd_tip (r_nd [1; 2]))) as Z.
  cbn [g_r d_args map] in Z. rewrite Z.
  replace (reqb (1 / 2) 1) with false by (symmetry; apply reqb_false; lra).
  replace (reqb 3 2) with false by (symmetry; apply reqb_false; lra).
  replace (reqb 0 0) with true by (symmetry; apply reqb_true; reflexivity).
  cbn [andb set_last removelast app]. unfold d_blade. replace (3 * 1 + 0 * 0) with 3 by ring. reflexivity.
Qed.

Lemma d_curvature n r c w x y z cone s i : (i < n)%nat -> (2 <= n)%nat ->
  (forall j, (j < n)%nat -> c j = 0) -> (forall j, (j < n)%nat -> w j = 0) -> (forall j, (S j < n)%nat -> r j < r (S j)) ->
  defineCurvature n r c w 0 = (x, y, z, cone, s) ->
  y i = 0 /\ z i = r i /\ cone i = 0 /\ s i = r i - r 0%nat.
Proof.
  intros Hi Hn Hc Hw Hr E. rewrite <- radians_0 in E.
  destruct (straight_blade n r c w 0 x y z cone s Hn ltac:(lra) Hr Hc Hw E i Hi) as (H1 & H2 & H3 & H4 & H5).
  rewrite radians_0 in *. rewrite cos_0 in *. repeat split; [assumption|lra|assumption|assumption].
Qed.

(** Wind at the two stations for a wind speed of 1 and one radian per second. *)
Lemma d_wind az i : (i < 2)%nat -> fst (wind d_blade 1 (30 / PI) az) i = 1 /\ snd (wind d_blade 1 (30 / PI) az) i = INR i + 1.
Proof.
  intros Hi. unfold wind. cbn [d_blade b_r b_precurve b_presweep b_precone b_yaw b_tilt b_hubHt b_shearExp length].
  destruct (windComponents _ _ _ _ _ _ _ _ _ _ _ _) as [Vx Vy] eqn:E. cbn [fst snd].
  destruct (defineCurvature 2 (aget [1; 2]) (aget [0; 0]) (aget [0; 0]) 0) as [[[[x y] z] cone] s] eqn:EC.
  destruct (wind_axisymmetric _ _ _ _ _ _ _ _ _ _ _ _ _ _ _ _ i E EC) as [H1 H2].
  destruct (d_curvature 2 (aget [1; 2]) (aget [0; 0]) (aget [0; 0]) x y z cone s i Hi (le_n 2)
    ltac:(intros [|[|j]] Hj; reflexivity || lia) ltac:(intros [|[|j]] Hj; reflexivity || lia)
    ltac:(intros [|j] Hj; [unfold aget; simpl; lra|lia]) EC) as (Hy & Hz & Hc & _).
  rewrite H1, H2, Hy, Hz, Hc, cos_0, sin_0. pose proof PI_RGT_0. split; [field; lra|].
  destruct i as [|[|i]]; [| |lia]; unfold aget; simpl; field; lra.
Qed.

Lemma d_loads npi bq p az : 3 < npi < PI -> root_inside bq -> accepts_sign_change bq ->
  exists l0 l1 N0 N1 T0 T1, distributedAeroLoads npi bq d_blade 1 (30 / PI) p az = Ok (repitch d_blade (radians p), [l0; l1]) /\
    rep (o_Np l0) N0 /\ rep (o_Np l1) N1 /\ rep (o_Tp l0) T0 /\ rep (o_Tp l1) T1 /\ 0 < N0 /\ 0 < N1 /\
    rep (o_a l0) 0 /\ rep (o_ap l0) 0 /\ rep (o_W l0) (sqrt 2).
Proof.
  intros Hn Hb1 Hb2. pose proof PI_RGT_0 as HP.
  assert (HO : reqb (30 / PI) 0 = false).
  { apply reqb_false. assert (0 < 30 / PI) by (apply Rdiv_lt_0_compat; lra). lra. }
  assert (S : forall i, (i < 2)%nat -> exists l N T, station_i npi bq d_blade (radians p) (30 / PI) (wind d_blade 1 (30 / PI) (radians az)) i = Ok (Fin 0, l) /\
     rep (o_Np l) N /\ 0 < N /\ rep (o_Tp l) T /\ rep (o_a l) 0 /\ rep (o_ap l) 0 /\ rep (o_W l) (sqrt (1 ^ 2 + (INR i + 1) ^ 2))).
  { intros i Hi. destruct (d_wind (radians az) i Hi) as [E1 E2].
    destruct (drag_station npi bq 2 (INR i + 1) 1 0 (radians p) 1 (INR i + 1) (1 / 2) 3 1 1) as (l & N & T & E & H1 & H2 & H3);
      try assumption; try lra; try lia.
    - destruct i as [|[|i]]; [simpl; lra|simpl; lra|lia].
    - destruct i as [|[|i]]; [simpl; lra|simpl; lra|lia].
    - destruct i as [|[|i]]; [simpl; lra|simpl; lra|lia].
    - destruct i as [|[|i]]; [simpl; lra|simpl; lra|lia].
    - exists l, N, T. split; [|auto]. unfold station_i. rewrite HO, E1, E2.
      cbn [negb]. destruct i as [|[|i]]; [| |lia].
      + replace (INR 0 + 1) with 1 in * by (simpl; ring).
        change (bind (solve_station npi bq (mkRotor (Fin (1 / 2)) (Fin 3) 2 (Fin 1) (Fin 1) off 1 (Fin (radians p))) true
          (mkSect (Fin 1) (Fin 1) (Fin 0) drag_af (Fin 1) (Fin 1))) (fun l0 => Ok (Fin 0, l0)) = Ok (Fin 0, l)).
        rewrite E. reflexivity.
      + replace (INR 1 + 1) with 2 in * by (simpl; ring).
        change (bind (solve_station npi bq (mkRotor (Fin (1 / 2)) (Fin 3) 2 (Fin 1) (Fin 1) off 1 (Fin (radians p))) true
          (mkSect (Fin 2) (Fin 1) (Fin 0) drag_af (Fin 1) (Fin 2))) (fun l0 => Ok (Fin 0, l0)) = Ok (Fin 0, l)).
        rewrite E. reflexivity. }
  destruct (S 0%nat ltac:(lia)) as (l0 & N0 & T0 & E0 & A0 & B0 & C0 & D0 & D1 & D2).
  destruct (S 1%nat ltac:(lia)) as (l1 & N1 & T1 & E1 & A1 & B1 & C1 & _).
  replace (1 ^ 2 + (INR 0 + 1) ^ 2) with 2 in D2 by (simpl; ring).
  exists l0, l1, N0, N1, T0, T1. split; [|auto 12]. unfold distributedAeroLoads.
  change (shapes_ok d_blade) with true. cbn [negb]. cbv zeta. change (seq 0 (length (b_r d_blade))) with [0%nat; 1%nat].
  cbn [mapM]. rewrite E0, E1. reflexivity.
Qed.

(** Flap moment of one blade. *)
Lemma d_moment N0 N1 T0 T1 Ts Ys Zs Qs Ms : 0 < N0 -> 0 < N1 ->
  thrustTorque 2 (aget [N0; N1]) (aget [T0; T1]) (aget [1; 2]) (aget [0; 0]) (aget [0; 0]) 0 (1 / 2) 3 0 0 = (Ts, Ys, Zs, Qs, Ms) ->
  0 < Ts /\ 0 < Ms.
Proof.
  intros H0 H1. unfold thrustTorque.
  destruct (defineCurvature _ _ _ _ _) as [[[[x y] z] cone] s] eqn:EC.
  assert (G : forall i, (i < 4)%nat -> y i = 0 /\ z i = pad 2 (1 / 2) (aget [1; 2]) 3 i /\ cone i = 0 /\
      s i = pad 2 (1 / 2) (aget [1; 2]) 3 i - pad 2 (1 / 2) (aget [1; 2]) 3 0%nat).
  { intros i Hi. apply (d_curvature 4 (pad 2 (1 / 2) (aget [1; 2]) 3) (pad 2 0 (aget [0; 0]) 0) (pad 2 0 (aget [0; 0]) 0) x y z cone s i Hi ltac:(lia)
      ltac:(intros [|[|[|[|j]]]] Hj; reflexivity || lia) ltac:(intros [|[|[|[|j]]]] Hj; reflexivity || lia)
      ltac:(intros [|[|[|j]]] Hj; [| | |lia]; unfold pad, aget; simpl; lra) EC). }
  destruct (G 0%nat ltac:(lia)) as (_ & Z0 & K0 & S0). destruct (G 1%nat ltac:(lia)) as (_ & Z1 & K1 & S1).
  destruct (G 2%nat ltac:(lia)) as (_ & Z2 & K2 & S2). destruct (G 3%nat ltac:(lia)) as (_ & Z3 & K3 & S3).
  cbn [Nat.add]. unfold trapz. rewrite Z0, Z1, Z2, Z3, K0, K1, K2, K3, S0, S1, S2, S3, cos_0.
  unfold pad, aget. simpl. intros E. injection E; intros <- _ _ _ <-. split; nra.
Qed.

Lemma fvals_two a b x y : rep a x -> rep b y -> fvals [a; b] = Some [x; y].
Proof. unfold rep. intros H1 H2. cbn [fvals]. rewrite H1, H2. reflexivity. Qed.

(** evaluate on this rotor: thrust and flap moment are positive. *)
Lemma d_evaluate npi bq n p : 3 < npi < PI -> root_inside bq -> accepts_sign_change bq -> (1 <= n)%nat ->
  exists b' y w, evaluate npi bq (with_sectors d_blade n) [(1, 30 / PI, p)] = Ok (b', [Some y], w) /\
    0 < t_T (y_tot y) /\ 0 < t_Mb (y_tot y).
Proof.
  intros Hn Hb1 Hb2 Hs.
  destruct (d_loads npi bq p 0 Hn Hb1 Hb2) as (l0 & l1 & N0 & N1 & T0 & T1 & E & R0 & R1 & Q0 & Q1 & P0 & P1 & _).
  pose proof (evaluate_axisymmetric npi bq d_blade n [(1, 30 / PI, p)] ltac:(repeat split) eq_refl Hs ltac:(discriminate)) as H.
  cbn [mapM cond_result] in H. rewrite E in H. cbn [bind fst snd map] in H.
  rewrite (fvals_two _ _ _ _ R0 R1), (fvals_two _ _ _ _ Q0 Q1) in H. cbn [combine map fst option_map] in H.
  destruct (evaluate npi bq (with_sectors d_blade n) [(1, 30 / PI, p)]) as [[[b' outs] w]|]; [|discriminate].
  unfold returned in H. cbn [bind fst snd] in H. apply ok_inj in H. injection H; intros E1 E2.
  exists b', (finish d_blade 1 (30 / PI) (mean_totals d_blade n [N0; N1] [T0; T1])), w. split; [rewrite E2; reflexivity|].
  unfold finish. cbn [y_tot]. unfold mean_totals, tot_plus, sector_totals, with_sectors, tot0, d_blade.
  cbn [b_B b_nSector b_r b_precurve b_presweep b_precone b_Rhub b_Rtip b_precurveTip b_presweepTip length].
  destruct (thrustTorque _ _ _ _ _ _ _ _ _ _ _) as [[[[Ts Ys] Zs] Qs] Ms] eqn:ET.
  destruct (d_moment _ _ _ _ _ _ _ _ _ P0 P1 ET) as [HT HM].
  assert (HN : 0 < INR n) by (apply lt_0_INR; lia).
  cbn [t_T t_Y t_Z t_Q t_My t_Mz t_Mb]. split.
  - replace (0 + INR n * (INR 2 * Ts / INR n)) with (2 * Ts) by (simpl; field; lra). lra.
  - replace (0 + INR n * (Ms / INR n)) with Ms by (field; lra). lra.
Qed.

(** C29 refuted. *)
Lemma side_moment_depends : forall npi bq, 3 < npi < PI -> root_inside bq -> accepts_sign_change bq ->
  exists b, construct d_args = Ok b /\ axisymmetric b /\ (2 <= b_B b)%nat /\
  exists b1 y1 w1 b4 y4 w4,
    evaluate npi bq (with_sectors b 1) [(1, 30 / PI, 0)] = Ok (b1, [Some y1], w1) /\
    evaluate npi bq (with_sectors b 4) [(1, 30 / PI, 0)] = Ok (b4, [Some y4], w4) /\
    0 < t_My (y_tot y1) /\ t_My (y_tot y4) = 0.
Proof.
  intros npi bq Hn Hb1 Hb2. exists d_blade. split; [exact d_construct|]. split; [repeat split|]. split; [cbn; lia|].
  destruct (d_evaluate npi bq 1 0 Hn Hb1 Hb2 ltac:(lia)) as (b1 & y1 & w1 & E1 & _ & M1).
  destruct (d_evaluate npi bq 4 0 Hn Hb1 Hb2 ltac:(lia)) as (b4 & y4 & w4 & E4 & _ & M4).
  exists b1, y1, w1, b4, y4, w4. split; [exact E1|]. split; [exact E4|]. split.
  - destruct (side_moment_one npi bq d_blade _ _ _ _ 0%nat y1 ltac:(repeat split) eq_refl E1 eq_refl) as [-> _].
    cbn [d_blade b_B]. simpl. lra.
  - exact (proj1 (proj2 (proj2 (side_loads_vanish npi bq d_blade 4 _ _ _ _ 0%nat y4 ltac:(repeat split) eq_refl ltac:(lia) E4 eq_refl)))).
Qed.
