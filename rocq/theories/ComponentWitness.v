(** Counterexamples about the partial derivatives of CCBladeLoads and CCBladeEvaluate (C60, C72, C73). *)
From Coquelicot Require Import Coquelicot.
From Coq Require Import Reals Bool Arith List Lra Lia.
From Verif Require Import Prelim Num Bem BemGeomSpec BemGeomProofs IndSpec Interp InterpSpec DiffSpec BemDiff DeriveLib Blade StationProofs
  InterpProofs ConstructProofs BladeDiff BladeDiffSpec StationDvProofs BladeDvProofs EvalDvProofs BladeDvExample.
From Verif Require Import SectorWitness Component ComponentSpec ComponentProofs ComponentRho ExactRotor.
Import ListNotations.
Open Scope R_scope.

(** A function that jumps at t has no derivative there. *)
Lemma jump_no_derive (f : R -> R) t c l : f t <> c -> locally t (fun s => s <> t -> f s = c) -> ~ is_derive f t l.
Proof.
  intros Hne Hloc Hd. assert (C : continuous f t) by (apply (ex_derive_continuous (K := R_AbsRing) (V := R_NormedModule)); exists l; exact Hd).
  assert (P : 0 < Rabs (f t - c)) by (apply Rabs_pos_lt; lra).
  specialize (C (ball (f t) (mkposreal _ P)) (locally_ball _ _)). unfold filtermap in C.
  destruct (filter_and _ _ Hloc C) as [d Hd2].
  assert (Hdp : 0 < pos d / 2) by (pose proof (cond_pos d); lra).
  assert (B : ball t d (t + pos d / 2)).
  { unfold ball; cbn; unfold AbsRing_ball, abs, minus, plus, opp; cbn. replace (t + pos d / 2 + - t) with (pos d / 2) by ring. rewrite Rabs_right by lra. lra. }
  destruct (Hd2 _ B) as [E1 E2]. specialize (E1 ltac:(lra)). rewrite E1 in E2.
  unfold ball in E2; cbn in E2; unfold AbsRing_ball, abs, minus, plus, opp in E2; cbn in E2.
  replace (Rabs (c + - f t)) with (Rabs (f t - c)) in E2 by (rewrite <- Rabs_Ropp; f_equal; ring). lra.
Qed.

Lemma flat_tt Np Tp Ts Ys Zs Qs Ms Rc :
  thrustTorque 2 Np Tp (aget [1; 2]) (aget [0; 0]) (aget [0; 0]) Rc (1 / 2) 3 0 0 = (Ts, Ys, Zs, Qs, Ms) -> Rc = 0 ->
  Ts = 3 / 4 * Np 0%nat + Np 1%nat /\ Ms = 3 / 4 * Np 0%nat + 2 * Np 1%nat.
Proof.
  intros E ->. revert E. unfold thrustTorque.
  destruct (defineCurvature _ _ _ _ _) as [[[[x y] z] cone] s] eqn:EC.
  assert (G : forall i, (i < 4)%nat -> y i = 0 /\ z i = pad 2 (1 / 2) (aget [1; 2]) 3 i /\ cone i = 0 /\
      s i = pad 2 (1 / 2) (aget [1; 2]) 3 i - pad 2 (1 / 2) (aget [1; 2]) 3 0%nat).
  { intros i Hi. apply (d_curvature 4 (pad 2 (1 / 2) (aget [1; 2]) 3) (pad 2 0 (aget [0; 0]) 0) (pad 2 0 (aget [0; 0]) 0) x y z cone s i Hi ltac:(lia)
      ltac:(intros [|[|[|[|j]]]] Hj; reflexivity || lia) ltac:(intros [|[|[|[|j]]]] Hj; reflexivity || lia)
      ltac:(intros [|[|[|j]]] Hj; [| | |lia]; unfold pad, aget; simpl; lra) EC). }
  destruct (G 0%nat ltac:(lia)) as (_ & Z0 & K0 & S0). destruct (G 1%nat ltac:(lia)) as (_ & Z1 & K1 & S1).
  destruct (G 2%nat ltac:(lia)) as (_ & Z2 & K2 & S2). destruct (G 3%nat ltac:(lia)) as (_ & Z3 & K3 & S3).
  cbn [Nat.add]. unfold trapz. rewrite Z0, Z1, Z2, Z3, K0, K1, K2, K3, S0, S1, S2, S3, cos_0.
  unfold pad, aget. simpl. intros E. injection E; intros <- _ _ _ <-. split; field.
Qed.

(** Thrust and flap moment of the blade at any azimuth. *)
Definition xT (s rho yaw : R) : R :=
  let N r := 2 * ex_c * rho * (s / 10) * slowed (s * cos (radians yaw)) r (s / 10) ^ 2 in 3 / 4 * N 1 + N 2.
Definition xM (s rho yaw : R) : R :=
  let N r := 2 * ex_c * rho * (s / 10) * slowed (s * cos (radians yaw)) r (s / 10) ^ 2 in 3 / 4 * N 1 + 2 * N 2.

Lemma slowed_pos V r c : 0 < V -> 0 < r -> 0 < c -> 0 < slowed V r c.
Proof. intros. unfold slowed. assert (0 < c / (3 * r)) by (apply Rdiv_lt_0_compat; lra). apply Rdiv_lt_0_compat; lra. Qed.

Lemma x_pos s rho yaw : 0 < s -> 0 < rho -> 0 < cos (radians yaw) -> 0 < xT s rho yaw /\ 0 < xM s rho yaw.
Proof.
  intros H1 H2 H3. unfold xT, xM.
  assert (P : forall r, 0 < r -> 0 < 2 * ex_c * rho * (s / 10) * slowed (s * cos (radians yaw)) r (s / 10) ^ 2).
  { intros r Hr. assert (0 < slowed (s * cos (radians yaw)) r (s / 10)) by (apply slowed_pos; nra).
    assert (0 < ex_c) by (unfold ex_c; pose proof PI_RGT_0; lra). apply Rmult_lt_0_compat; [|apply pow_lt; assumption]. apply Rmult_lt_0_compat; [|lra]. apply Rmult_lt_0_compat; lra. }
  pose proof (P 1 ltac:(lra)). pose proof (P 2 ltac:(lra)). split; lra.
Qed.

Lemma xr_sectors npi s rho yaw l u : 0 < s < 5 -> 0 < cos (radians yaw) ->
  exists t, sectors_val npi ex_bq (eval_fixed (xr s rho yaw)) (eval_design (xr s rho yaw)) l u = Ok t /\
    let m := INR (f_nSector (eval_fixed (xr s rho yaw))) in
    t_T t = t_T u + list_sum (fun _ => xT s rho yaw / m) l /\
    t_My t = t_My u + list_sum (fun az => xM s rho yaw * cos az / m) l.
Proof.
  intros Hs Hy. revert u. induction l as [|az l IH]; intros u.
  - exists u. cbn. split; [reflexivity|]. split; ring.
  - cbn [sectors_val].
    destruct (flat_loads npi (s / 10) 1 s yaw (degrees az) (1 / 2) rho (f_nSector (eval_fixed (xr s rho yaw)))) as (l0 & l1 & E & N0 & N1 & _ & _);
      try lra; try nra.
    { rewrite Rabs_right; lra. }
    change (loads_list npi ex_bq (eval_fixed (xr s rho yaw)) (set_azimuth (eval_design (xr s rho yaw)) (degrees az)) = Ok [l0; l1]) in E.
    rewrite E. cbn [bind].
    match goal with |- context [sectors_val _ _ _ _ l ?u'] => set (u1 := u') end.
    destruct (IH u1) as (t & Et & HT & HM). exists t. split; [exact Et|]. cbv zeta in *.
    set (m := INR (f_nSector (eval_fixed (xr s rho yaw)))) in *.
    assert (U : t_T u1 = t_T u + xT s rho yaw / m /\ t_My u1 = t_My u + xM s rho yaw * cos az / m).
    { unfold u1, tot_step. fold m. destruct (thrustTorque _ _ _ _ _ _ _ _ _ _ _) as [[[[Ts Ys] Zs] Qs] Ms] eqn:ET.
      cbn [t_T t_My].
      change (f_n (eval_fixed (xr s rho yaw))) with 2%nat in ET.
      change (x_r (eval_design (xr s rho yaw))) with (aget [1; 2]) in ET.
      change (x_precurve (eval_design (xr s rho yaw))) with (aget [0; 0]) in ET.
      change (x_presweep (eval_design (xr s rho yaw))) with (aget [0; 0]) in ET.
      change (x_Rhub (eval_design (xr s rho yaw))) with (1 / 2) in ET.
      change (x_Rtip (eval_design (xr s rho yaw))) with 3 in ET.
      change (x_precurveTip (eval_design (xr s rho yaw))) with 0 in ET.
      change (x_presweepTip (eval_design (xr s rho yaw))) with 0 in ET.
      destruct (flat_tt _ _ _ _ _ _ _ _ ET radians_0) as [-> ->]. cbn [nth]. rewrite N0, N1.
      change (INR (f_B (eval_fixed (xr s rho yaw)))) with 1. unfold xT, xM. split; unfold Rdiv; ring. }
    destruct U as [U1 U2]. rewrite HT, HM, U1, U2. unfold list_sum; cbn [fold_right]. split; ring.
Qed.

Lemma xr_count s rho yaw : f_nSector (eval_fixed (xr s rho yaw)) = if reqb yaw 0 then 1%nat else 4%nat.
Proof.
  unfold eval_fixed, given_fixed, sector_count, eval_rotor, xr. cbn [ri_args g_tilt g_yaw g_shearExp g_nSector ei_tilt ei_yaw ei_shearExp ei_nSector f_nSector].
  replace (reqb 0 0) with true by (symmetry; apply reqb_true; reflexivity). cbn [andb]. destruct (reqb yaw 0); reflexivity.
Qed.

Lemma four_cos : cos (INR 0 * (2 * PI / 4)) + cos (INR 1 * (2 * PI / 4)) + cos (INR 2 * (2 * PI / 4)) + cos (INR 3 * (2 * PI / 4)) = 0.
Proof.
  simpl. replace (0 * (2 * PI / 4)) with 0 by ring. replace (1 * (2 * PI / 4)) with (PI / 2) by field.
  replace ((1 + 1) * (2 * PI / 4)) with PI by field. replace ((1 + 1 + 1) * (2 * PI / 4)) with (3 * (PI / 2)) by field.
  rewrite cos_0, cos_PI2, cos_PI, cos_3PI2. ring.
Qed.

Lemma xr_outputs npi s rho yaw : 0 < s < 5 -> 0 < cos (radians yaw) -> exists o, eval_compute npi ex_bq (xr s rho yaw) = Ok o /\
  eo_Fhub o 0%nat = xT s rho yaw /\ eo_Mhub o 1%nat = if reqb yaw 0 then xM s rho yaw else 0.
Proof.
  intros Hs Hy. unfold eval_compute. rewrite (object_given _ (xr_clear s rho yaw)). cbn [bind fst snd].
  fold (eval_fixed (xr s rho yaw)) (eval_design (xr s rho yaw)).
  destruct (xr_sectors npi s rho yaw (azimuths (f_nSector (eval_fixed (xr s rho yaw)))) tot0 Hs Hy) as (t & Et & HT & HM).
  rewrite Et. cbn [bind]. eexists. split; [reflexivity|]. cbv zeta in HT, HM. rewrite xr_count in HT, HM.
  unfold eval_finish. cbn [eo_Fhub eo_Mhub vec3 nth]. change (t_T tot0) with 0 in HT. change (t_My tot0) with 0 in HM. rewrite HT, HM.
  destruct (reqb yaw 0).
  - unfold azimuths. cbn [seq map list_sum fold_right]. change (INR 1) with 1. change (INR 0) with 0. rewrite Rmult_0_l, cos_0. split; field.
  - unfold azimuths. cbn [seq map list_sum fold_right]. replace (INR 4) with 4 by (simpl; ring). pose proof four_cos as F.
    split; [field|]. set (M := xM s rho yaw).
    transitivity (M / 4 * (cos (INR 0 * (2 * PI / 4)) + cos (INR 1 * (2 * PI / 4)) + cos (INR 2 * (2 * PI / 4)) + cos (INR 3 * (2 * PI / 4)))); [field|].
    rewrite F. ring.
Qed.

Lemma xr_partials npi s : 0 < s < 20 -> exists J, eval_partials npi ex_bq (xr s 1 0) = Ok J.
Proof.
  intros H. destruct (ex_evaluate 1 npi s H) as (_ & _ & (E & EE) & _). unfold eval_partials.
  rewrite (object_given _ (xr_clear s 1 0)). cbn [bind fst snd]. fold (eval_fixed (xr s 1 0)) (eval_design (xr s 1 0)).
  rewrite xr_fixed0, xr_design, EE. cbn [bind]. eexists. reflexivity.
Qed.

(** C60: the partial with respect to rho is wrong. *)
Lemma rho_witness : forall npi, exists bq i o J, eval_compute npi bq i = Ok o /\ eval_partials npi bq i = Ok J /\
  is_derive (fun rho => out (fun o => eo_Fhub o 0%nat) (eval_compute npi bq (set_rho i rho))) (ei_rho i) (eo_Fhub o 0%nat / ei_rho i) /\
  eo_Fhub o 0%nat / ei_rho i <> K_rho (K_Fhub J 0%nat).
Proof.
  intros npi. destruct (xr_outputs npi 1 1 0) as (o & E & HT & _); [lra|rewrite radians_0, cos_0; lra|].
  destruct (xr_partials npi 1 ltac:(lra)) as (J & EJ). exists ex_bq, (xr 1 1 0), o, J. split; [exact E|]. split; [exact EJ|].
  destruct (rho_partials npi ex_bq (xr 1 1 0) o J (xr_clear 1 1 0) ltac:(intros k al Re Re'; reflexivity) ltac:(cbn; lra) E EJ) as (_ & _ & _ & _ & H).
  destruct (H 0%nat ltac:(lia)) as (H1 & H2 & _). split; [exact H1|]. rewrite H2, HT. cbn [ei_rho xr].
  destruct (x_pos 1 1 0 ltac:(lra) ltac:(lra) ltac:(rewrite radians_0, cos_0; lra)) as [P _]. lra.
Qed.

(** C72: at zero yaw the side moment jumps. *)
Lemma cos_small y : -1 < y < 1 -> 0 < cos (radians y).
Proof. intros H. pose proof PI_RGT_0. apply cos_gt_0; unfold radians; nra. Qed.

Lemma yaw_witness : forall npi, exists bq i o J, eval_compute npi bq i = Ok o /\ eval_partials npi bq i = Ok J /\
  locally (ei_yaw i) (fun y => succeeds (eval_compute npi bq (set_yaw i y))) /\
  forall l, ~ is_derive (fun y => out (fun o => eo_Mhub o 1%nat) (eval_compute npi bq (set_yaw i y))) (ei_yaw i) l.
Proof.
  intros npi. destruct (xr_outputs npi 1 1 0) as (o & E & _ & HM); [lra|rewrite radians_0, cos_0; lra|].
  destruct (xr_partials npi 1 ltac:(lra)) as (J & EJ). exists ex_bq, (xr 1 1 0), o, J. split; [exact E|]. split; [exact EJ|].
  assert (Loc : locally 0 (fun y => -1 < y < 1)).
  { exists (mkposreal 1 Rlt_0_1). intros y Hy. unfold ball in Hy; cbn in Hy; unfold AbsRing_ball, abs, minus, plus, opp in Hy; cbn in Hy.
    apply Rabs_lt_between in Hy. lra. }
  assert (V : forall y, -1 < y < 1 -> exists o, eval_compute npi ex_bq (set_yaw (xr 1 1 0) y) = Ok o /\ eo_Mhub o 1%nat = if reqb y 0 then xM 1 1 y else 0).
  { intros y Hy. destruct (xr_outputs npi 1 1 y) as (oy & Ey & _ & My); [lra|apply cos_small; exact Hy|]. exists oy. split; assumption. }
  change (ei_yaw (xr 1 1 0)) with 0. split.
  - generalize Loc. apply filter_imp. intros y Hy. destruct (V y Hy) as (oy & Ey & _). exists oy. exact Ey.
  - intros l. apply (jump_no_derive _ _ 0).
    + destruct (V 0 ltac:(lra)) as (oy & Ey & My). rewrite Ey. cbn [out]. rewrite My.
      replace (reqb 0 0) with true by (symmetry; apply reqb_true; reflexivity).
      destruct (x_pos 1 1 0 ltac:(lra) ltac:(lra) ltac:(rewrite radians_0, cos_0; lra)) as [_ P]. lra.
    + generalize Loc. apply filter_imp. intros y Hy Hne. destruct (V y Hy) as (oy & Ey & My). rewrite Ey. cbn [out]. rewrite My.
      replace (reqb y 0) with false by (symmetry; apply reqb_false; exact Hne). reflexivity.
Qed.

(** C73: a first station at the hub radius. *)
Lemma xl_object_hub : exists fx, object (load_rotor (xl 1 1 1)) = Ok (fx,
   mkDesign (aget [101 / 100; 2]) (aget [1 / 10; 1 / 10]) (aget [0; 0]) (aget [0; 0]) (aget [0; 0]) 0 0 90 1 3 0 0 0 0 0 1 (150 / PI) 0) /\
   fx = mkFixed 2 (fun _ => ex_af) (fun _ => ex_afd) 1 1 1 ex_opts 1 1.
Proof.
  eexists. split; [|reflexivity]. unfold object, load_rotor, xl. cbn [ri_args ri_call ri_af ri_afd li_r li_chord li_theta li_Rhub li_Rtip li_B li_rho li_mu li_precone li_tilt li_yaw
    li_shearExp li_hub_height li_nSector li_precurve li_precurveTip li_opts li_af li_afd li_V li_Omega li_pitch li_azimuth fill_precurve].
  unfold construct. cbn [g_r length Nat.ltb Nat.leb g_precurve g_presweep map curve_error tip_error Nat.eqb andb negb g_chord g_theta g_af g_Rhub g_Rtip g_B g_rho g_mu g_precone g_tilt g_yaw g_shearExp g_hubHt g_nSector g_precurveTip
       g_presweepTip g_opts g_iterRe hd last map].
  rewrite !radians_0.
  pose proof (interp_zeros d_args d_increasing ltac:(simpl; lia) (nd_tip (r_nd [1; 2]))) as Z. cbn [g_r d_args map] in Z. rewrite Z.
  replace (reqb 1 1) with true by (symmetry; apply reqb_true; reflexivity).
  replace (reqb 3 2) with false by (symmetry; apply reqb_false; lra).
  replace (reqb 0 0) with true by (symmetry; apply reqb_true; reflexivity).
  assert (I : interp (nd_hub (r_nd [1; 2])) (r_nd [1; 2]) [1; 2] = 101 / 100).
  { unfold r_nd. cbn [map hd last]. replace ((1 - 1) / (2 - 1)) with 0 by field. replace ((2 - 1) / (2 - 1)) with 1 by field.
    unfold nd_hub. cbn [nth]. rewrite Rmin_left by lra.
    unfold interp. cbn.
    replace (rltb (1 / 100) 0) with false by (symmetry; apply rltb_false; lra).
    replace (rltb (1 / 100) 1) with true by (symmetry; apply rltb_true; lra).
    unfold seg. replace (reqb 0 (1 / 100)) with false by (symmetry; apply reqb_false; lra).
    field. }
  rewrite I. reflexivity.
Qed.

Lemma xl_hub npi : exists o, loads_compute npi ex_bq (xl 1 1 1) = Ok o /\
  lo_Px (fst o) 0%nat = 2 * ex_c * 1 * (1 / 10) * slowed 1 (101 / 100) (1 / 10) ^ 2.
Proof.
  destruct xl_object_hub as (fx & E & ->). unfold loads_compute. rewrite E. cbn [bind fst snd].
  destruct (flat_dv npi (1 / 10) (101 / 100) 1 0 0 1 1 1) as ((((Np & Tp) & dNp) & dTp) & ED & HN); try lra.
  { rewrite radians_0, cos_0. lra. }
  { rewrite Rabs_right; lra. }
  rewrite ED. cbn [bind]. eexists. split; [reflexivity|]. cbn [fst lo_Px]. cbn [fst] in HN. rewrite (HN 0%nat ltac:(lia)).
  rewrite radians_0, cos_0. replace (1 * 1) with 1 by ring. reflexivity.
Qed.

Lemma xl_off npi h : h <> 1 -> exists o, loads_compute npi ex_bq (xl 1 1 h) = Ok o /\
  lo_Px (fst o) 0%nat = 2 * ex_c * 1 * (1 / 10) * slowed 1 1 (1 / 10) ^ 2.
Proof.
  intros Hh. unfold loads_compute. rewrite (object_given _ (xl_clear 1 1 h ltac:(lra) ltac:(congruence))). cbn [bind fst snd].
  destruct (flat_dv npi (1 / 10) 1 1 0 0 h 1 1) as ((((Np & Tp) & dNp) & dTp) & ED & HN); try lra.
  { rewrite radians_0, cos_0. lra. }
  { rewrite Rabs_right; lra. }
  assert (FX : given_fixed (load_rotor (xl 1 1 h)) = mkFixed 2 (fun _ => ex_af) (fun _ => ex_afd) 1 1 1 ex_opts 1 1).
  { unfold given_fixed, sector_count, load_rotor, xl. cbn [ri_args g_tilt g_yaw g_shearExp li_tilt li_yaw li_shearExp].
    replace (reqb 0 0) with true by (symmetry; apply reqb_true; reflexivity). reflexivity. }
  rewrite FX. change (given_design (load_rotor (xl 1 1 h))) with
    (mkDesign (aget [1; 2]) (aget [1 / 10; 1 / 10]) (aget [0; 0]) (aget [0; 0]) (aget [0; 0]) 0 0 90 h 3 0 0 0 0 0 1 (150 / PI) 0).
  rewrite ED. cbn [bind]. eexists. split; [reflexivity|]. cbn [fst lo_Px]. cbn [fst] in HN. rewrite (HN 0%nat ltac:(lia)).
  rewrite radians_0, cos_0. replace (1 * 1) with 1 by ring. reflexivity.
Qed.

Lemma hub_witness : forall npi, exists bq i o, loads_compute npi bq i = Ok o /\ hd 0 (li_r i) = li_Rhub i /\
  (forall h, succeeds (loads_compute npi bq (set_Rhub i h))) /\
  forall l, ~ is_derive (fun h => out (fun o => lo_Px (fst o) 0%nat) (loads_compute npi bq (set_Rhub i h))) (li_Rhub i) l.
Proof.
  intros npi. destruct (xl_hub npi) as (o & E & HP). exists ex_bq, (xl 1 1 1), o. split; [exact E|]. split; [reflexivity|].
  assert (SE : forall h, set_Rhub (xl 1 1 1) h = xl 1 1 h) by reflexivity. split.
  - intros h. rewrite SE. destruct (Req_dec h 1) as [->|Hh]; [eexists; exact E|]. destruct (xl_off npi h Hh) as (oh & Eh & _). eexists; exact Eh.
  - intros l. apply (jump_no_derive _ _ (2 * ex_c * 1 * (1 / 10) * slowed 1 1 (1 / 10) ^ 2)).
    + rewrite SE. change (li_Rhub (xl 1 1 1)) with 1. rewrite E. cbn [out]. rewrite HP. intros X.
      assert (0 < ex_c) by (unfold ex_c; pose proof PI_RGT_0; lra).
      assert (Y : slowed 1 (101 / 100) (1 / 10) ^ 2 = slowed 1 1 (1 / 10) ^ 2) by nra.
      unfold slowed in Y. field_simplify in Y. lra.
    + exists (mkposreal 1 Rlt_0_1). intros h _ Hh. rewrite SE. destruct (xl_off npi h Hh) as (oh & Eh & Ph). rewrite Eh. exact Ph.
Qed.
