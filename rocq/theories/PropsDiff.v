(** Property theorems for the generated derivative routines of ccblade/src/bem.f90
    (C33-C36).  Every input is an arbitrary differentiable function of one
    parameter s; the seed directions are its derivatives at s = t.  A conclusion
    [is_derive f t d] says that the routine's directional derivative d is the
    derivative of the primal routine's output along these functions. *)
From Coquelicot Require Import Coquelicot.
From Coq Require Import Reals Bool Arith Lia Lra.
From Verif Require Import Prelim Num Bem BemGeomSpec IndSpec BemDiff DeriveLib DiffSpec IndProofs IndDvProofs CurvDvProofs
  AdjointProofs.
Open Scope R_scope.

(** C33. relativewind_dv, any number of directions (nd is the direction's index). *)
Theorem C33_relativewind_dv : forall (phi a ap Vx Vy pitch chord theta : R -> R) (rho mu t : R)
    (phid ad apd vxd vyd pitchd chordd thetad : dirs) nd,
  is_derive phi t (phid nd) -> is_derive a t (ad nd) -> is_derive ap t (apd nd) ->
  is_derive Vx t (vxd nd) -> is_derive Vy t (vyd nd) -> is_derive pitch t (pitchd nd) ->
  is_derive chord t (chordd nd) -> is_derive theta t (thetad nd) -> mu <> 0 ->
  wind_branch (phi t) (a t) (ap t) (Vx t) (Vy t) ->
  let f := fun s => relativeWind (phi s) (a s) (ap s) (Vx s) (Vy s) (pitch s) (chord s) (theta s) rho mu in
  let d := relativeWind_dv (phi t) phid (a t) ad (ap t) apd (Vx t) vxd (Vy t) vyd (pitch t) pitchd
             (chord t) chordd (theta t) thetad rho mu in
  f t = (rw_alpha d, rw_w d, rw_re d) /\
  is_derive (fun s => out_alpha (f s)) t (rw_alphad d nd) /\
  is_derive (fun s => out_W (f s)) t (rw_wd d nd) /\
  is_derive (fun s => out_Re (f s)) t (rw_red d nd).
Proof. exact relativeWind_dv_exact. Qed.
Print Assumptions C33_relativewind_dv.

Example C33_example : (* all three formulas are reachable *)
  wind_branch (1 / 10) (1 / 3) (1 / 100) 10 70 /\ wind_branch (1 / 10) 11 0 10 70 /\ wind_branch (1 / 10) 1 (-11) 10 70.
Proof.
  pose proof PI2_3_2. unfold wind_branch. rewrite !Rabs_right by lra. rewrite (Rabs_left (-11)) by lra.
  split; [|split].
  - right; right. split; [lra|split; [lra|left; lra]].
  - left. split; [lra|]. apply Rgt_not_eq, cos_gt_0; lra.
  - right; left. repeat split; try lra. apply Rgt_not_eq, sin_gt_0; lra.
Qed.

(** Where the relative wind vanishes the square root has no derivative; the routine then reports zero for the speed and the Reynolds number. *)
Theorem C33_no_relative_wind : forall phi phid a ad ap apd vx vxd vy vyd pitch pitchd chord chordd theta thetad rho mu nd,
  Rabs a <= 10 -> Rabs ap <= 10 -> vx * (1 - a) = 0 -> vy * (1 + ap) = 0 -> mu <> 0 ->
  let o := relativeWind_dv phi phid a ad ap apd vx vxd vy vyd pitch pitchd chord chordd theta thetad rho mu in
  rw_w o = 0 /\ rw_wd o nd = 0 /\ rw_re o = 0 /\ rw_red o nd = 0.
Proof.
  intros phi phid a ad ap apd vx vxd vy vyd pitch pitchd chord chordd theta thetad rho mu nd Ha Hp Ex Ey Hmu o. unfold o, relativeWind_dv. cbv zeta. rewrite !abs_if.
  replace (rltb 10 (Rabs a)) with false by (symmetry; apply rltb_false; exact Ha). replace (rltb 10 (Rabs ap)) with false by (symmetry; apply rltb_false; exact Hp).
  rewrite Ex, Ey. replace (0 ^ 2 + 0 ^ 2) with 0 by ring. rewrite sqrt_0. replace (reqb 0 0) with true by (symmetry; apply reqb_true; reflexivity). cbn [rw_w rw_wd rw_re rw_red].
  repeat split; field; exact Hmu.
Qed.
Print Assumptions C33_no_relative_wind.

Example C33_example_use : (* Vx = 3 + s, Vy = 4: W = 5 at s = 0 and grows at 3/5 *)
  is_derive (fun s => out_W (relativeWind 1 0 0 (3 + s) 4 0 1 0 1 1)) 0 (3 / 5).
Proof.
  assert (Z : forall c : R, is_derive (fun _ => c) 0 0) by (intros c; apply d_const).
  pose proof (C33_relativewind_dv (fun _ => 1) (fun _ => 0) (fun _ => 0) (fun s => 3 + s) (fun _ => 4) (fun _ => 0) (fun _ => 1) (fun _ => 0)
    1 1 0 (fun _ => 0) (fun _ => 0) (fun _ => 0) (fun _ => 1) (fun _ => 0) (fun _ => 0) (fun _ => 0) (fun _ => 0) 0%nat
    (Z 1) (Z 0) (Z 0) ltac:(cbv beta; der; ring) (Z 4) (Z 0) (Z 1) (Z 0)) as H.
  cbv zeta beta in H. destruct H as (_ & _ & H & _); [lra| |].
  { right; right. rewrite Rabs_R0. split; [lra|split; [lra|left; lra]]. }
  match type of H with is_derive _ _ ?d => replace (3 / 5) with d; [exact H|] end.
  unfold relativeWind_dv. cbn [rw_wd].
  assert (E0 : rltb 10 0 = false) by (apply rltb_false; lra).
  rewrite !abs_if, Rabs_R0, E0. cbv zeta. cbn [rw_wd].
  match goal with |- (if reqb ?x 0 then _ else _) = _ => replace x with 25 by ring end.
  replace (reqb 25 0) with false by (symmetry; apply reqb_false; lra).
  replace (sqrt 25) with 5 by (replace 25 with (5 * 5) by ring; rewrite sqrt_square; lra). field.
Qed.

(** C34. inductionfactors_dv, any switches, any number of directions.  On the
    momentum side the switch k = 2/3 itself is included when the guarded band of
    the empirical formula is not there (see C16). *)
Theorem C34_inductionfactors_dv : forall (o : bemopts) (B : nat)
    (r chord Rhub Rtip phi cl cd Vx Vy : R -> R) (t : R)
    (rd chordd rhubd rtipd phid cld cdd vxd vyd : dirs) nd,
  is_derive r t (rd nd) -> is_derive chord t (chordd nd) -> is_derive Rhub t (rhubd nd) ->
  is_derive Rtip t (rtipd nd) -> is_derive phi t (phid nd) -> is_derive cl t (cld nd) ->
  is_derive cd t (cdd nd) -> is_derive Vx t (vxd nd) -> is_derive Vy t (vyd nd) ->
  r t <> 0 -> sin (phi t) <> 0 -> Vx t <> 0 -> Vy t <> 0 ->
  losses_apply o B (r t) (Rhub t) (Rtip t) (phi t) ->
  axial_branch (phi t) (loading o B (r t) (chord t) (Rhub t) (Rtip t) (phi t) (cl t) (cd t))
    (lossF o B (r t) (Rhub t) (Rtip t) (phi t)) ->
  (wakerotation o = true -> cos (phi t) <> 0 /\
     loading_t o B (r t) (chord t) (Rhub t) (Rtip t) (phi t) (cl t) (cd t) <> 1) ->
  let f := fun s => inductionFactors o B (r s) (chord s) (Rhub s) (Rtip s) (phi s) (cl s) (cd s) (Vx s) (Vy s) in
  let d := inductionFactors_dv o B (r t) rd (chord t) chordd (Rhub t) rhubd (Rtip t) rtipd (phi t) phid
             (cl t) cld (cd t) cdd (Vx t) vxd (Vy t) vyd in
  f t = (iv_fzero d, iv_a d, iv_ap d) /\
  is_derive (fun s => out_fzero (f s)) t (iv_fzerod d nd) /\
  is_derive (fun s => out_a (f s)) t (iv_ad d nd) /\
  is_derive (fun s => out_ap (f s)) t (iv_apd d nd).
Proof. exact inductionFactors_dv_exact. Qed.
Print Assumptions C34_inductionfactors_dv.

Example C34_example_losses : (* everything switched on, no load at s = t, inflow angle 60 degrees *)
  let o := mkOpts true true true true in
  losses_apply o 3 50 1 63 (PI / 3) /\
  axial_branch (PI / 3) (loading o 3 50 4 1 63 (PI / 3) 0 0) (lossF o 3 50 1 63 (PI / 3)) /\
  cos (PI / 3) <> 0 /\ sin (PI / 3) <> 0 /\ loading_t o 3 50 4 1 63 (PI / 3) 0 0 <> 1.
Proof.
  intros o. pose proof PI_RGT_0 as P. assert (S : 0 < sin (PI / 3)) by (apply sin_gt_0; lra).
  assert (C : 0 < cos (PI / 3)) by (apply cos_gt_0; lra).
  replace (loading o 3 50 4 1 63 (PI / 3) 0 0) with 0 by (unfold loading, coef_n, Rdiv; simpl; ring).
  replace (loading_t o 3 50 4 1 63 (PI / 3) 0 0) with 0 by (unfold loading_t, coef_t, Rdiv; simpl; ring).
  split; [|split; [|repeat split; lra]].
  - split; intros _; simpl INR; [|split; [lra|]]; (apply Rdiv_lt_0_compat; [lra|]);
      repeat apply Rmult_lt_0_compat; lra.
  - left. split; [|split]; lra.
Qed.

Example C34_example_branches : (* the switch, the empirical side and negative angles, losses off *)
  let o := mkOpts true false false true in
  losses_apply o 2 1 0.5 3 (PI / 6) /\
  axial_branch (PI / 6) (loading o 2 1 PI 0.5 3 (PI / 6) 0 (4 / 3)) (lossF o 2 1 0.5 3 (PI / 6)) /\
  axial_branch (PI / 6) (loading o 2 1 PI 0.5 3 (PI / 6) 0 10) (lossF o 2 1 0.5 3 (PI / 6)) /\
  axial_branch (- (PI / 6)) (loading o 2 1 PI 0.5 3 (- (PI / 6)) 0 10) (lossF o 2 1 0.5 3 (- (PI / 6))) /\
  loading o 2 1 PI 0.5 3 (PI / 6) 0 (4 / 3) = 2 / 3.
Proof.
  intros o. pose proof PI_RGT_0 as P.
  assert (K : forall c, loading o 2 1 PI 0.5 3 (PI / 6) 0 c = c / 2).
  { intros c. unfold loading, lossF, solidity, coef_n; cbn [o useCd hubLoss tipLoss]. rewrite sin_PI6. simpl INR. field. lra. }
  assert (K2 : forall c, loading o 2 1 PI 0.5 3 (- (PI / 6)) 0 c = - (c / 2)).
  { intros c. unfold loading, lossF, solidity, coef_n; cbn [o useCd hubLoss tipLoss]. rewrite sin_neg, sin_PI6. simpl INR. field. lra. }
  assert (L : forall x, lossF o 2 1 0.5 3 x = 1) by (intros x; unfold lossF; cbn [o hubLoss tipLoss]; ring).
  rewrite !K, K2, !L. repeat split.
  - intros H. discriminate H.
  - discriminate H.
  - discriminate H.
  - right; left. unfold band. rewrite Rabs_right; lra.
  - right; right; left. unfold band. rewrite Rabs_right; lra.
  - right; right; right. lra.
  - lra.
Qed.

(** C35. definecurvature_dv2; without its last component (the path length), definecurvature_dv. *)
Theorem C35_definecurvature_dv2 : forall n (r pc ps : nat -> R -> R) (precone : R -> R) (t : R)
    (rd pcd psd : nat -> arr) (preconed : dirs) nd, (2 <= n)%nat ->
  curves_derive n r t (rd nd) -> curves_derive n pc t (pcd nd) -> curves_derive n ps t (psd nd) ->
  is_derive precone t (preconed nd) ->
  let f := fun s => defineCurvature n (at_time r s) (at_time pc s) (at_time ps s) (precone s) in
  proper_segments n (out_x (f t)) (out_z (f t)) ->
  let d := fst (defineCurvature_dv2 n (at_time r t) rd (at_time pc t) pcd (at_time ps t) psd (precone t) preconed) in
  let sd := snd (defineCurvature_dv2 n (at_time r t) rd (at_time pc t) pcd (at_time ps t) psd (precone t) preconed) in
  (forall i, (i < n)%nat -> cv_x d i = out_x (f t) i /\ cv_y d i = out_y (f t) i /\ cv_z d i = out_z (f t) i /\
     cv_cone d i = out_cone (f t) i /\ cv_s d i = out_s (f t) i) /\
  curves_derive n (fun i s => out_x (f s) i) t (cv_xd d nd) /\
  curves_derive n (fun i s => out_y (f s) i) t (cv_yd d nd) /\
  curves_derive n (fun i s => out_z (f s) i) t (cv_zd d nd) /\
  curves_derive n (fun i s => out_cone (f s) i) t (cv_coned d nd) /\
  curves_derive n (fun i s => out_s (f s) i) t (sd nd).
Proof. exact curv_dv2_exact. Qed.
Print Assumptions C35_definecurvature_dv2.

Theorem C35_definecurvature_dv : forall n (r pc ps : nat -> R -> R) (precone : R -> R) (t : R)
    (rd pcd psd : nat -> arr) (preconed : dirs) nd, (2 <= n)%nat ->
  curves_derive n r t (rd nd) -> curves_derive n pc t (pcd nd) -> curves_derive n ps t (psd nd) ->
  is_derive precone t (preconed nd) ->
  let f := fun s => defineCurvature n (at_time r s) (at_time pc s) (at_time ps s) (precone s) in
  proper_segments n (out_x (f t)) (out_z (f t)) ->
  let d := defineCurvature_dv n (at_time r t) rd (at_time pc t) pcd (at_time ps t) psd (precone t) preconed in
  (forall i, (i < n)%nat -> cv_x d i = out_x (f t) i /\ cv_y d i = out_y (f t) i /\ cv_z d i = out_z (f t) i /\
     cv_cone d i = out_cone (f t) i /\ cv_s d i = out_s (f t) i) /\
  curves_derive n (fun i s => out_x (f s) i) t (cv_xd d nd) /\
  curves_derive n (fun i s => out_y (f s) i) t (cv_yd d nd) /\
  curves_derive n (fun i s => out_z (f s) i) t (cv_zd d nd) /\
  curves_derive n (fun i s => out_cone (f s) i) t (cv_coned d nd).
Proof. exact curv_dv_exact. Qed.
Print Assumptions C35_definecurvature_dv.

Theorem C35_windcomponents_dv : forall n (r pc ps : nat -> R -> R)
    (precone yaw tilt azimuth Uinf rpm hubHt shear : R -> R) (t : R)
    (rd pcd psd : nat -> arr) (preconed yawd tiltd azimuthd uinfd rpmd hubhtd sheard : dirs) nd, (2 <= n)%nat ->
  curves_derive n r t (rd nd) -> curves_derive n pc t (pcd nd) -> curves_derive n ps t (psd nd) ->
  is_derive precone t (preconed nd) -> is_derive yaw t (yawd nd) -> is_derive tilt t (tiltd nd) ->
  is_derive azimuth t (azimuthd nd) -> is_derive Uinf t (uinfd nd) -> is_derive rpm t (rpmd nd) ->
  is_derive hubHt t (hubhtd nd) -> is_derive shear t (sheard nd) -> hubHt t <> 0 ->
  let c := defineCurvature n (at_time r t) (at_time pc t) (at_time ps t) (precone t) in
  proper_segments n (out_x c) (out_z c) ->
  (forall i, (i < n)%nat ->
     0 < 1 + height_az (azimuth t) (tilt t) (out_x c i) (out_y c i) (out_z c i) / hubHt t
     \/ forall s, shear s = 0) ->
  let f := fun s => windComponents n (at_time r s) (at_time pc s) (at_time ps s)
             (precone s) (yaw s) (tilt s) (azimuth s) (Uinf s) (rpm s) (hubHt s) (shear s) in
  let d := windComponents_dv n (at_time r t) rd (at_time pc t) pcd (at_time ps t) psd (precone t) preconed
             (yaw t) yawd (tilt t) tiltd (azimuth t) azimuthd (Uinf t) uinfd (rpm t) rpmd (hubHt t) hubhtd
             (shear t) sheard in
  (forall i, (i < n)%nat -> wv_vx d i = fst (f t) i /\ wv_vy d i = snd (f t) i) /\
  curves_derive n (fun i s => fst (f s) i) t (wv_vxd d nd) /\
  curves_derive n (fun i s => snd (f s) i) t (wv_vyd d nd).
Proof. exact wind_dv_exact. Qed.
Print Assumptions C35_windcomponents_dv.

Example C35_example : (* a straight blade, stations at 1, 2, 3, ..., azimuth 0, 90 m tower, blade coned *)
  let c := defineCurvature 10 (fun i => INR (S i)) (fun _ => 0) (fun _ => 0) (PI / 3) in
  proper_segments 10 (out_x c) (out_z c) /\
  forall i, (i < 10)%nat -> 0 < 1 + height_az 0 0 (out_x c i) (out_y c i) (out_z c i) / 90.
Proof.
  intros c. assert (C : 0 < cos (PI / 3)) by (pose proof PI_RGT_0; apply cos_gt_0; lra).
  split.
  - intros i Hi. left. unfold c, out_z, defineCurvature, curv_z. cbv zeta. cbn [fst snd]. rewrite (S_INR (S i)). nra.
  - intros i Hi. unfold c, out_x, out_y, out_z, defineCurvature, curv_x, curv_y, curv_z. cbv zeta. cbn [fst snd]. unfold height_az. rewrite sin_0, cos_0.
    assert (0 <= INR (S i) * cos (PI / 3)) by (apply Rmult_le_pos; [apply pos_INR|lra]). lra.
Qed.

(** C36. thrusttorque_bv, one seed vector per direction nd.  The routine extends
    the arrays by the hub and the tip; the extended curve must have proper
    segments (nothing is asked of the sweep). *)
Theorem C36_thrusttorque_bv : forall n (Np Tp r pc ps : nat -> R -> R)
    (precone Rhub Rtip pcTip psTip : R -> R) (t : R)
    (Np' Tp' r' pc' ps' : nat -> R) (precone' Rhub' Rtip' pcTip' psTip' : R) (tb yb zb qb mb : dirs) nd,
  curves_derive n Np t Np' -> curves_derive n Tp t Tp' -> curves_derive n r t r' ->
  curves_derive n pc t pc' -> curves_derive n ps t ps' ->
  is_derive precone t precone' -> is_derive Rhub t Rhub' -> is_derive Rtip t Rtip' ->
  is_derive pcTip t pcTip' -> is_derive psTip t psTip' ->
  (forall rf cf wf, extends n (Rhub t) (at_time r t) (Rtip t) rf -> extends n 0 (at_time pc t) (pcTip t) cf ->
     let c := defineCurvature (n + 2) rf cf wf (precone t) in proper_segments (n + 2) (out_x c) (out_z c)) ->
  let f := fun s => thrustTorque n (at_time Np s) (at_time Tp s) (at_time r s) (at_time pc s) (at_time ps s)
             (precone s) (Rhub s) (Rtip s) (pcTip s) (psTip s) in
  let d := thrustTorque_bv n (at_time Np t) (at_time Tp t) (at_time r t) (at_time pc t) (at_time ps t)
             (precone t) (Rhub t) (Rtip t) (pcTip t) (psTip t) tb yb zb qb mb nd in
  is_derive (fun s => seeded (tb nd) (yb nd) (zb nd) (qb nd) (mb nd) (f s)) t
    (inner n (tb_np d) Np' + inner n (tb_tp d) Tp' + inner n (tb_r d) r' + inner n (tb_pc d) pc'
     + inner n (tb_ps d) ps' + tb_precone d * precone' + tb_rhub d * Rhub' + tb_rtip d * Rtip'
     + tb_pctip d * pcTip' + tb_pstip d * psTip').
Proof. exact thrustTorque_bv_exact. Qed.
Print Assumptions C36_thrusttorque_bv.

Example C36_example : (* a straight blade from 1 to 12 with stations at 2, ..., 11 *)
  forall rf cf wf, extends 10 1 (fun i => INR (i + 2)) 12 rf -> extends 10 0 (fun _ => 0) 0 cf ->
  let c := defineCurvature (10 + 2) rf cf wf 0 in proper_segments (10 + 2) (out_x c) (out_z c).
Proof.
  intros rf cf wf (H1 & H2 & H3) (K1 & K2 & K3) c i Hi. left.
  unfold c, out_z, defineCurvature, curv_z. cbv zeta. cbn [fst snd]. rewrite cos_0, sin_0.
  assert (E : forall j, (j < 12)%nat -> rf j = INR (j + 1)).
  { intros [|j] Hj; [rewrite H1; simpl; lra|]. destruct (Nat.eq_dec j 10) as [->|].
    - rewrite H3. simpl. lra.
    - rewrite H2 by lia. f_equal. lia. }
  rewrite !E by lia. rewrite !plus_INR, S_INR. lra.
Qed.
