(** Lemmas about curvature, wind components and load integration. *)
From Coquelicot Require Import Coquelicot.
From Coq Require Import Reals List Bool Arith Lia Lra.
From Verif Require Import Prelim CSystem CSystemSpec CSystemProofs Num Bem BemGeomSpec.
Import ListNotations.
Open Scope R_scope.

(** ** atan2 *)
Lemma sqrt_scale x y : 0 < x -> sqrt (x ^ 2 + y ^ 2) = x * sqrt (1 + (y / x)^2).
Proof.
  intros Hx. replace (x ^ 2 + y ^ 2) with (x ^ 2 * (1 + (y/x)^2)) by (field; lra).
  rewrite sqrt_mult_alt by nra. rewrite sqrt_pow2 by lra. reflexivity.
Qed.

Lemma sqrt1p_pos t : 0 < sqrt (1 + t ^ 2).
Proof. apply sqrt_lt_R0. nra. Qed.

Lemma polar_pos y x : 0 < x ->
  x = sqrt (x ^ 2 + y ^ 2) * cos (atan (y / x)) /\ y = sqrt (x ^ 2 + y ^ 2) * sin (atan (y / x)).
Proof.
  intros Hx. rewrite cos_atan, sin_atan, sqrt_scale by assumption.
  pose proof (sqrt1p_pos (y / x)). unfold Rsqr.
  replace (y / x * (y / x)) with ((y / x)^2) by ring.
  split; field; lra.
Qed.

Lemma atan2_polar y x : (x <> 0 \/ y <> 0) -> polar_angle y x (atan2 y x).
Proof.
  intros Hn. unfold polar_angle, atan2.
  pose proof PI_RGT_0 as HPI. pose proof (atan_bound (y / x)) as Hb.
  destruct (rltb 0 x) eqn:E; rb_hyps; [split; [lra | apply polar_pos; assumption]|].
  destruct (rltb x 0) eqn:E0; rb_hyps.
  - assert (Hx : 0 < - x) by lra.
    pose proof (polar_pos (- y) (- x) Hx) as [H1 H2].
    replace ((- x) ^ 2 + (- y) ^ 2) with (x ^ 2 + y ^ 2) in * by ring.
    replace (- y / - x) with (y / x) in * by (field; lra).
    destruct (rleb 0 y) eqn:E1; rb_hyps.
    + rewrite neg_cos, neg_sin. split; [|split; lra].
      split; [lra|].
      destruct E1 as [E1|<-].
      * assert (y / x < 0) by (apply Rmult_lt_0_compat with (1 := E1) in Hx; apply Ropp_lt_cancel;
          replace (- (y / x)) with (y / - x) by (field; lra); rewrite Ropp_0; apply Rdiv_lt_0_compat; lra).
        pose proof (atan_increasing _ _ H). rewrite atan_0 in H0. lra.
      * replace (0 / x) with 0 by (field; lra). rewrite atan_0. lra.
    + rewrite cos_minus, sin_minus, cos_PI, sin_PI. split; [|split; lra].
      assert (0 < y / x) by (replace (y / x) with ((- y) / (- x)) by (field; lra); apply Rdiv_lt_0_compat; lra).
      pose proof (atan_increasing _ _ H). rewrite atan_0 in H0. lra.
  - assert (x = 0) by lra. subst x.
    replace (0 ^ 2 + y ^ 2) with (y ^ 2) by ring.
    rb_case; [|rb_case].
    + rewrite sqrt_pow2 by lra. rewrite cos_PI2, sin_PI2. lra.
    + replace (y ^ 2) with ((- y) ^ 2) by ring. rewrite sqrt_pow2 by lra.
      rewrite cos_neg, sin_neg, cos_PI2, sin_PI2. lra.
    + lra.
Qed.

(** Uniqueness of an angle in (-PI, PI] with given sine and cosine. *)
Lemma angle_unique a b : - PI < a <= PI -> - PI < b <= PI ->
  cos a = cos b -> sin a = sin b -> a = b.
Proof.
  intros Ha Hb Hc Hs.
  pose proof PI_RGT_0 as HPI.
  assert (Hd : cos (a - b) = 1).
  { rewrite cos_minus, Hc, Hs. pose proof (sin2_cos2 b). unfold Rsqr in *. lra. }
  assert (Hh : sin ((a - b) / 2) = 0).
  { replace (a - b) with (2 * ((a - b) / 2)) in Hd by field.
    rewrite cos_2a_sin in Hd. nra. }
  assert (Hr : - PI < (a - b) / 2 < PI) by lra.
  destruct (Rtotal_order ((a - b) / 2) 0) as [Hlt|[He|Hgt]].
  - assert (0 < sin (- ((a - b) / 2))) by (apply sin_gt_0; lra). rewrite sin_neg in H. lra.
  - lra.
  - assert (0 < sin ((a - b) / 2)) by (apply sin_gt_0; lra). lra.
Qed.

Lemma atan2_of_polar rho th : 0 < rho -> - PI < th <= PI ->
  atan2 (rho * sin th) (rho * cos th) = th.
Proof.
  intros Hr Hth.
  assert (Hq : sqrt ((rho * cos th) ^ 2 + (rho * sin th) ^ 2) = rho).
  { replace ((rho * cos th) ^ 2 + (rho * sin th) ^ 2) with (rho ^ 2 * (Rsqr (sin th) + Rsqr (cos th))).
    - rewrite sin2_cos2, Rmult_1_r. apply sqrt_pow2. lra.
    - unfold Rsqr. ring. }
  assert (Hn : rho * cos th <> 0 \/ rho * sin th <> 0).
  { destruct (Req_dec (rho * cos th) 0); [|tauto]. right. intros H0.
    rewrite H, H0 in Hq. replace (0 ^ 2 + 0 ^ 2) with 0 in Hq by ring. rewrite sqrt_0 in Hq. lra. }
  destruct (atan2_polar _ _ Hn) as (Hb & Hx & Hy).
  rewrite Hq in Hx, Hy.
  apply angle_unique; auto.
  - apply Rmult_eq_reg_l with rho; lra.
  - apply Rmult_eq_reg_l with rho; lra.
Qed.

(** ** Path length *)
Lemma dist3_sqrt p q : dist3 p q = sqrt ((c1 p - c1 q) ^ 2 + (c2 p - c2 q) ^ 2 + (c3 p - c3 q) ^ 2).
Proof. reflexivity. Qed.

(** Cauchy-Schwarz and the triangle inequality in three dimensions. *)
Lemma cauchy3 a b c x y z :
  a * x + b * y + c * z <= sqrt (a ^ 2 + b ^ 2 + c ^ 2) * sqrt (x ^ 2 + y ^ 2 + z ^ 2).
Proof.
  rewrite <- sqrt_mult by nra.
  destruct (Rle_lt_dec (a * x + b * y + c * z) 0) as [Hn|Hp].
  - pose proof (sqrt_pos ((a ^ 2 + b ^ 2 + c ^ 2) * (x ^ 2 + y ^ 2 + z ^ 2))). lra.
  - rewrite <- (sqrt_pow2 (a * x + b * y + c * z)) by lra.
    apply sqrt_le_1_alt.
    assert (0 <= (a * y - b * x) ^ 2 + (a * z - c * x) ^ 2 + (b * z - c * y) ^ 2)
      by (repeat apply Rplus_le_le_0_compat; apply pow2_ge_0).
    nra.
Qed.

Lemma norm3_triangle a b c x y z :
  sqrt ((a + x) ^ 2 + (b + y) ^ 2 + (c + z) ^ 2)
  <= sqrt (a ^ 2 + b ^ 2 + c ^ 2) + sqrt (x ^ 2 + y ^ 2 + z ^ 2).
Proof.
  set (u := sqrt (a ^ 2 + b ^ 2 + c ^ 2)). set (v := sqrt (x ^ 2 + y ^ 2 + z ^ 2)).
  assert (Hu : 0 <= u) by apply sqrt_pos. assert (Hv : 0 <= v) by apply sqrt_pos.
  assert (Huu : u * u = a ^ 2 + b ^ 2 + c ^ 2) by (apply sqrt_sqrt; nra).
  assert (Hvv : v * v = x ^ 2 + y ^ 2 + z ^ 2) by (apply sqrt_sqrt; nra).
  pose proof (cauchy3 a b c x y z) as Hc. fold u v in Hc.
  rewrite <- (sqrt_pow2 (u + v)) by lra. apply sqrt_le_1_alt. nra.
Qed.

Lemma dist3_triangle p q r : dist3 p r <= dist3 p q + dist3 q r.
Proof.
  unfold dist3.
  replace (c1 p - c1 r) with ((c1 p - c1 q) + (c1 q - c1 r)) by ring.
  replace (c2 p - c2 r) with ((c2 p - c2 q) + (c2 q - c2 r)) by ring.
  replace (c3 p - c3 r) with ((c3 p - c3 q) + (c3 q - c3 r)) by ring.
  apply norm3_triangle.
Qed.

Lemma dist3_pos p q : 0 <= dist3 p q.
Proof. apply sqrt_pos. Qed.

Lemma dist3_refl p : dist3 p p = 0.
Proof. unfold dist3. rewrite <- sqrt_0 at 1. apply (f_equal sqrt). ring. Qed.

Lemma polyline_mono p i j : (i <= j)%nat -> polyline p i <= polyline p j.
Proof.
  induction 1 as [|j Hij IH]; [lra|]. simpl. pose proof (dist3_pos (p (S j)) (p j)). lra.
Qed.

Lemma polyline_dist p i j : (i <= j)%nat -> dist3 (p j) (p i) <= polyline p j - polyline p i.
Proof.
  induction 1 as [|j Hij IH].
  - rewrite dist3_refl. lra.
  - simpl. pose proof (dist3_triangle (p (S j)) (p j) (p i)). lra.
Qed.

Lemma radians_cs x : radians (x * 1) = radians x.
Proof. f_equal. ring. Qed.

Lemma station_az_coords pc x y z :
  coords (station_az pc x y z)
  = (- z * sin (radians pc) + x * cos (radians pc), y, z * cos (radians pc) + x * sin (radians pc)).
Proof.
  unfold station_az, station, apply, coords; simpl. unfold bladeToAzimuth, rot_zxy, rotateAboutZ; cbn [vx vy vz fresh].
  rewrite radians_cs. reflexivity.
Qed.

Lemma dist3_station_az pc x y z x' y' z' :
  dist3 (coords (station_az pc x y z)) (coords (station_az pc x' y' z'))
  = sqrt ((x - x') ^ 2 + (y - y') ^ 2 + (z - z') ^ 2).
Proof.
  rewrite !station_az_coords. unfold dist3, c1, c2, c3; cbn [fst snd]. apply (f_equal sqrt).
  pose proof (sin2_cos2 (radians pc)) as Hs. unfold Rsqr in Hs.
  assert (Hs' : sin (radians pc) * sin (radians pc) = 1 - cos (radians pc) * cos (radians pc)) by lra.
  ring [Hs'].
Qed.

Lemma curv_s_polyline pc r c w i :
  curv_s r c w i = polyline (fun j => coords (station_az pc (c j) (w j) (r j))) i.
Proof.
  induction i as [|i IH]; [reflexivity|]. cbn [curv_s polyline]. rewrite IH, dist3_station_az. reflexivity.
Qed.

Lemma curvature_s n r c w pc s x y z cone :
  defineCurvature n r c w pc = (x, y, z, cone, s) ->
  s = curv_s r c w /\ cone = curv_cone n x z /\ x = curv_x r c pc /\ y = w /\ z = curv_z r c pc.
Proof. unfold defineCurvature. intros H. injection H. intros. subst. auto. Qed.

(** ** Total cone angle *)
Lemma cone_first n x z : curv_cone n x z 0%nat = atan2 (- (x 1%nat - x 0%nat)) (z 1%nat - z 0%nat).
Proof. reflexivity. Qed.

Definition seg_angle (x z : arr) (i : nat) : R := atan2 (- (x (S i) - x i)) (z (S i) - z i).

Lemma cone_last n x z : (2 <= n)%nat -> curv_cone n x z (n - 1)%nat = seg_angle x z (n - 2)%nat.
Proof.
  intros Hn. unfold curv_cone, seg_angle.
  destruct (Nat.eqb_spec (n - 1) 0); [lia|]. rewrite Nat.eqb_refl.
  replace (S (n - 2)) with (n - 1)%nat by lia. reflexivity.
Qed.

Lemma cone_mid n x z i : (0 < i)%nat -> (i < n - 1)%nat ->
  curv_cone n x z i = (seg_angle x z (i - 1)%nat + seg_angle x z i) / 2.
Proof.
  intros Hi Hn. unfold curv_cone, seg_angle.
  destruct (Nat.eqb_spec i 0); [lia|]. destruct (Nat.eqb_spec i (n - 1)); [lia|].
  replace (S (i - 1)) with i by lia. replace (i + 1)%nat with (S i) by lia. lra.
Qed.

(** ** Straight blade *)
Lemma seg_straight r c pc i : - PI < pc <= PI -> r i < r (S i) -> c i = c (S i) ->
  seg_angle (curv_x r c pc) (curv_z r c pc) i = pc.
Proof.
  intros Hpc Hr Hc. unfold seg_angle, curv_x, curv_z. rewrite Hc.
  replace (- (- r (S i) * sin pc + c (S i) * cos pc - (- r i * sin pc + c (S i) * cos pc)))
    with ((r (S i) - r i) * sin pc) by ring.
  replace (r (S i) * cos pc + c (S i) * sin pc - (r i * cos pc + c (S i) * sin pc))
    with ((r (S i) - r i) * cos pc) by ring.
  apply atan2_of_polar; lra.
Qed.

Lemma cone_straight n r c pc i :
  (2 <= n)%nat -> (i < n)%nat -> - PI < pc <= PI ->
  (forall j, (S j < n)%nat -> r j < r (S j)) ->
  (forall j, (S j < n)%nat -> c j = c (S j)) ->
  curv_cone n (curv_x r c pc) (curv_z r c pc) i = pc.
Proof.
  intros Hn Hi Hpc Hr Hc.
  assert (Hs : forall j, (S j < n)%nat -> seg_angle (curv_x r c pc) (curv_z r c pc) j = pc)
    by (intros; apply seg_straight; auto).
  destruct (Nat.eq_dec i 0) as [->|H0].
  - rewrite cone_first. apply (Hs 0%nat). lia.
  - destruct (Nat.eq_dec i (n - 1)) as [->|H1].
    + rewrite cone_last by assumption. apply Hs. lia.
    + rewrite cone_mid by lia. rewrite !Hs by lia. lra.
Qed.

Lemma curv_s_straight r c w n i : (i < n)%nat ->
  (forall j, (S j < n)%nat -> r j < r (S j)) ->
  (forall j, (S j < n)%nat -> c j = c (S j)) ->
  (forall j, (S j < n)%nat -> w j = w (S j)) ->
  curv_s r c w i = r i - r 0%nat.
Proof.
  intros Hi Hr Hc Hw. induction i as [|i IH]; cbn [curv_s]; [lra|].
  rewrite IH by lia. rewrite <- (Hc i), <- (Hw i) by lia.
  replace ((c i - c i) ^ 2 + (w i - w i) ^ 2 + (r (S i) - r i) ^ 2) with ((r (S i) - r i) ^ 2) by ring.
  rewrite sqrt_pow2; [lra|]. specialize (Hr i Hi). lra.
Qed.

(** ** Wind components *)
Lemma rpow_Rpower x y : 0 < x -> rpow x y = Rpower x y.
Proof.
  intros Hx. unfold rpow. rb_if; [subst; rewrite Rpower_O; auto|].
  rb_if; [reflexivity|lra].
Qed.

Lemma rpow_0 x : rpow x 0 = 1.
Proof. unfold rpow. rb_if; [reflexivity|lra]. Qed.

Lemma wind_in_blade_c V yaw tilt az cone :
  let sy := sin (radians yaw) in let cy := cos (radians yaw) in
  let st := sin (radians tilt) in let ct := cos (radians tilt) in
  let sa := sin (radians az) in let ca := cos (radians az) in
  let sc := sin (radians cone) in let cc := cos (radians cone) in
  c1 (wind_in_blade V yaw tilt az cone) = V * ((cy * st * ca + sy * sa) * sc + cy * ct * cc) /\
  c2 (wind_in_blade V yaw tilt az cone) = V * (cy * st * sa - sy * ca).
Proof.
  intros. unfold wind_in_blade, apply, coords; simpl.
  unfold windToYaw, yawToHub, hubToAzimuth, azimuthToBlade, rot_xyz, rot_zxy, rot_yzx, rotateAboutZ;
  cbn [vx vy vz fresh c1 c2 c3 fst snd].
  rewrite !radians_cs. unfold c1, c2; cbn [fst snd].
  replace (radians (cone * -1)) with (- radians cone) by (unfold radians; ring).
  rewrite sin_neg, cos_neg. fold sy cy st ct sa ca sc cc. split; ring.
Qed.

Lemma rotation_in_blade_c Om cone p :
  c1 (rotation_in_blade Om cone p) = - Om * vy p * sin (radians cone) /\
  c2 (rotation_in_blade Om cone p) = Om * vz p.
Proof.
  unfold rotation_in_blade, apply, coords; simpl.
  unfold azimuthToBlade, rot_zxy, rotateAboutZ, dv_neg, cross; cbn [vx vy vz fresh].
  unfold c1, c2; cbn [fst snd].
  replace (radians (cone * -1)) with (- radians cone) by (unfold radians; ring).
  rewrite sin_neg, cos_neg. split; ring.
Qed.

Lemma height_c az tilt p :
  height az tilt p = (vy p * sin (radians az) + vz p * cos (radians az)) * cos (radians tilt)
                     - vx p * sin (radians tilt).
Proof.
  unfold height, apply; simpl.
  unfold azimuthToHub, hubToYaw, rot_yzx, rot_zxy, rotateAboutZ; cbn [vx vy vz].
  replace (radians (az * -1)) with (- radians az) by (unfold radians; ring).
  replace (radians (tilt * -1)) with (- radians tilt) by (unfold radians; ring).
  rewrite !sin_neg, !cos_neg. ring.
Qed.

Lemma wind_components_chain n r c w precone yaw tilt az U rpm hub shear i Vx Vy x y z cone s p :
  windComponents n r c w (radians precone) (radians yaw) (radians tilt) (radians az) U rpm hub shear = (Vx, Vy) ->
  defineCurvature n r c w (radians precone) = (x, y, z, cone, s) ->
  p = station_az precone (c i) (w i) (r i) ->
  (0 < 1 + height az tilt p / hub \/ shear = 0) ->
  let V := U * Rpower (1 + height az tilt p / hub) shear in
  let V' := if Req_EM_T shear 0 then U else V in
  let v := add3 (wind_in_blade V' yaw tilt az (degrees (cone i)))
                (rotation_in_blade (rpm * PI / 30) (degrees (cone i)) p) in
  Vx i = c1 v /\ Vy i = c2 v.
Proof.
  intros HW HC Hp Hg V V' v.
  unfold windComponents in HW. rewrite HC in HW. injection HW; clear HW; intros HVy HVx.
  apply curvature_s in HC. destruct HC as (Hs & Hcone & Hx & Hy & Hz).
  assert (Hpc := station_az_coords precone (c i) (w i) (r i)). rewrite <- Hp in Hpc.
  unfold coords in Hpc. injection Hpc; intros Hpz Hpy Hpx.
  set (hh := (y i * sin (radians az) + z i * cos (radians az)) * cos (radians tilt) - x i * sin (radians tilt)) in *.
  assert (Hh : height az tilt p = hh).
  { rewrite height_c, Hpx, Hpy, Hpz. unfold hh. rewrite Hx, Hy, Hz. unfold curv_x, curv_z. ring. }
  assert (HV : U * rpow (1 + hh / hub) shear = V').
  { unfold V', V. rewrite Hh. destruct (Req_EM_T shear 0) as [->|Hne].
    - rewrite rpow_0. ring.
    - destruct Hg as [Hg|]; [|contradiction]. rewrite rpow_Rpower by (rewrite <- Hh; assumption). reflexivity. }
  destruct (wind_in_blade_c V' yaw tilt az (degrees (cone i))) as [Hw1 Hw2].
  destruct (rotation_in_blade_c (rpm * PI / 30) (degrees (cone i)) p) as [Hr1 Hr2].
  rewrite radians_degrees in *.
  assert (Hv1 : c1 v = c1 (wind_in_blade V' yaw tilt az (degrees (cone i)))
                + c1 (rotation_in_blade (rpm * PI / 30) (degrees (cone i)) p)).
  { unfold v. destruct (wind_in_blade _ _ _ _ _) as [[? ?] ?], (rotation_in_blade _ _ _) as [[? ?] ?]. reflexivity. }
  assert (Hv2 : c2 v = c2 (wind_in_blade V' yaw tilt az (degrees (cone i)))
                + c2 (rotation_in_blade (rpm * PI / 30) (degrees (cone i)) p)).
  { unfold v. destruct (wind_in_blade _ _ _ _ _) as [[? ?] ?], (rotation_in_blade _ _ _) as [[? ?] ?]. reflexivity. }
  rewrite Hv1, Hv2, Hw1, Hw2, Hr1, Hr2, Hpy, Hpz.
  rewrite <- HVx, <- HVy. cbv beta. fold hh. rewrite HV. rewrite Hy, Hz. unfold curv_z. split; ring.
Qed.

Lemma wind_axisymmetric n r c w pc az U rpm hub Vx Vy x y z cone s i :
  windComponents n r c w pc 0 0 az U rpm hub 0 = (Vx, Vy) ->
  defineCurvature n r c w pc = (x, y, z, cone, s) ->
  Vx i = U * cos (cone i) - rpm * PI / 30 * y i * sin (cone i) /\ Vy i = rpm * PI / 30 * z i.
Proof.
  intros HW HC. unfold windComponents in HW. rewrite HC in HW. injection HW; clear HW; intros HVy HVx.
  rewrite <- HVx, <- HVy. rewrite sin_0, cos_0, rpow_0. split; ring.
Qed.

(** ** Load integration *)
Lemma pad_extends n h f t : extends n h f t (pad n h f t).
Proof.
  unfold extends, pad. split; [reflexivity|]. split.
  - intros i Hi. destruct (Nat.eqb_spec (S i) 0); [lia|].
    destruct (Nat.eqb_spec (S i) (n + 1)); [lia|]. replace (S i - 1)%nat with i by lia. reflexivity.
  - destruct (Nat.eqb_spec (S n) 0); [lia|]. destruct (Nat.eqb_spec (S n) (n + 1)); [reflexivity|lia].
Qed.

Lemma extends_unique n h f t g g' i : extends n h f t g -> extends n h f t g' -> (i <= n + 1)%nat -> g i = g' i.
Proof.
  intros (H1 & H2 & H3) (H1' & H2' & H3') Hi. destruct i as [|i]; [congruence|].
  destruct (Nat.eq_dec i n) as [->|]; [congruence|]. rewrite H2, H2' by lia. reflexivity.
Qed.

Lemma trapz_ext m f s f' s' : (forall i, (i <= m)%nat -> f i = f' i) -> (forall i, (i <= m)%nat -> s i = s' i) ->
  trapz m f s = trapz m f' s'.
Proof.
  induction m as [|m IH]; intros Hf Hs; cbn [trapz]; [reflexivity|].
  rewrite IH by (intros; auto). rewrite !Hf, !Hs by lia. reflexivity.
Qed.

Lemma curv_s_ext r c w r' c' w' i : (forall j, (j <= i)%nat -> r j = r' j) ->
  (forall j, (j <= i)%nat -> c j = c' j) -> (forall j, (j <= i)%nat -> w j = w' j) ->
  curv_s r c w i = curv_s r' c' w' i.
Proof.
  induction i as [|i IH]; intros Hr Hc Hw; cbn [curv_s]; [reflexivity|].
  rewrite IH by (intros; auto). rewrite !Hr, !Hc, !Hw by lia. reflexivity.
Qed.

Lemma curv_cone_ext n x z x' z' i : (2 <= n)%nat -> (i < n)%nat ->
  (forall j, (j < n)%nat -> x j = x' j) -> (forall j, (j < n)%nat -> z j = z' j) ->
  curv_cone n x z i = curv_cone n x' z' i.
Proof.
  intros Hn Hi Hx Hz. unfold curv_cone.
  destruct (Nat.eqb_spec i 0); [rewrite !Hx, !Hz by lia; reflexivity|].
  destruct (Nat.eqb_spec i (n - 1)); rewrite !Hx, !Hz by lia; reflexivity.
Qed.

Lemma curv_s_incr r c w m : (forall i, (i < m)%nat -> r i < r (S i)) -> increasing_upto m (curv_s r c w).
Proof.
  intros Hr i Hi. cbn [curv_s]. specialize (Hr i Hi).
  assert (0 < sqrt ((c (S i) - c i) ^ 2 + (w (S i) - w i) ^ 2 + (r (S i) - r i) ^ 2)).
  { apply sqrt_lt_R0. pose proof (pow2_ge_0 (c (S i) - c i)). pose proof (pow2_ge_0 (w (S i) - w i)).
    assert (0 < (r (S i) - r i) ^ 2) by (apply pow_lt; lra). lra. }
  lra.
Qed.

Lemma incr_le m s i j : increasing_upto m s -> (i <= j)%nat -> (j <= m)%nat -> s i <= s j.
Proof.
  intros Hs Hij. induction Hij as [|j Hij IH]; intros Hm; [lra|].
  pose proof (Hs j ltac:(lia)). specialize (IH ltac:(lia)). lra.
Qed.

Lemma interpolates_seg m s f g i x : increasing_upto m s -> interpolates m s f g -> (i < m)%nat ->
  s i <= x <= s (S i) -> g x = f i + (f (S i) - f i) / (s (S i) - s i) * (x - s i).
Proof.
  intros Hs Hg Hi Hx. pose proof (Hs i Hi) as Hlt.
  specialize (Hg i Hi ((x - s i) / (s (S i) - s i))).
  replace ((1 - (x - s i) / (s (S i) - s i)) * s i + (x - s i) / (s (S i) - s i) * s (S i)) with x in Hg by (field; lra).
  rewrite Hg; [field; lra|]. split.
  - apply Rmult_le_pos; [lra|]. left. apply Rinv_0_lt_compat. lra.
  - apply Rmult_le_reg_r with (s (S i) - s i); [lra|]. unfold Rdiv. rewrite Rmult_assoc, Rinv_l by lra. lra.
Qed.

Lemma is_RInt_linear a b u v : is_RInt (fun x => u + v * (x - a)) a b ((b - a) * u + v * (b - a) ^ 2 / 2).
Proof.
  replace ((b - a) * u + v * (b - a) ^ 2 / 2)
    with (minus ((fun x => u * (x - a) + v * (x - a) ^ 2 / 2) b) ((fun x => u * (x - a) + v * (x - a) ^ 2 / 2) a))
    by (unfold minus, plus, opp; simpl; field).
  apply is_RInt_derive with (f := fun x => u * (x - a) + v * (x - a) ^ 2 / 2).
  - intros x _. auto_derive; [exact I|]. field.
  - intros x _. apply (continuous_plus (fun _ => u) (fun x => v * (x - a))); [apply continuous_const|].
    apply (continuous_scal_r v (fun x => x - a)). apply (continuous_minus (fun x => x) (fun _ => a)); [apply continuous_id|apply continuous_const].
Qed.

Lemma trapz_is_RInt m s f g : increasing_upto m s -> interpolates m s f g ->
  is_RInt g (s 0%nat) (s m) (trapz m f s).
Proof.
  induction m as [|m IH]; intros Hs Hg.
  - apply (is_RInt_point g (s 0%nat)).
  - cbn [trapz].
    apply (is_RInt_Chasles g (s 0%nat) (s m) (s (S m)) (trapz m f s) (1 / 2 * (f m + f (S m)) * (s (S m) - s m))).
    + apply IH; intros i Hi; [apply Hs; lia|]. intros t Ht. apply Hg; [lia|assumption].
    + pose proof (Hs m ltac:(lia)) as Hlt.
      apply is_RInt_ext with (f := fun x => f m + (f (S m) - f m) / (s (S m) - s m) * (x - s m)).
      * intros x Hx. rewrite Rmin_left, Rmax_right in Hx by lra. symmetry.
        apply (interpolates_seg (S m)); auto; lra.
      * replace (1 / 2 * (f m + f (S m)) * (s (S m) - s m))
          with ((s (S m) - s m) * f m + (f (S m) - f m) / (s (S m) - s m) * (s (S m) - s m) ^ 2 / 2) by (field; lra).
        apply is_RInt_linear.
Qed.

Lemma interpolant_exists m s f : increasing_upto m s -> exists g, interpolates m s f g /\ g (s m) = f m.
Proof.
  induction m as [|m IH]; intros Hs.
  - exists (fun _ => f 0%nat). split; [intros i Hi; lia|reflexivity].
  - destruct IH as (g & Hg & Hgm); [intros i Hi; apply Hs; lia|].
    pose proof (Hs m ltac:(lia)) as Hlt.
    exists (fun x => if Rle_dec x (s m) then g x else f m + (f (S m) - f m) / (s (S m) - s m) * (x - s m)).
    split.
    + intros i Hi t Ht.
      destruct (Nat.eq_dec i m) as [->|Hne].
      * destruct (Rle_dec _ _) as [Hle|Hgt].
        -- assert (t = 0) by nra. subst t. replace ((1 - 0) * s m + 0 * s (S m)) with (s m) by ring.
           rewrite Hgm. ring.
        -- field. lra.
      * destruct (Rle_dec _ _) as [Hle|Hgt]; [apply Hg; [lia|assumption]|].
        exfalso. apply Hgt. pose proof (Hs i Hi) as Hli.
        pose proof (incr_le (S m) s (S i) m Hs ltac:(lia) ltac:(lia)). nra.
    + destruct (Rle_dec _ _); [lra|]. field. lra.
Qed.

Lemma trapz_lin m a b f g s :
  trapz m (fun i => a * f i + b * g i) s = a * trapz m f s + b * trapz m g s.
Proof. induction m as [|m IH]; cbn [trapz]; [ring|]. rewrite IH. ring. Qed.

Lemma trapz_nonneg m f s : (forall i, (i <= m)%nat -> 0 <= f i) -> (forall i, (i < m)%nat -> s i <= s (S i)) ->
  0 <= trapz m f s.
Proof.
  induction m as [|m IH]; intros Hf Hs; cbn [trapz]; [lra|].
  pose proof (IH ltac:(intros; apply Hf; lia) ltac:(intros; apply Hs; lia)).
  pose proof (Hf m ltac:(lia)). pose proof (Hf (S m) ltac:(lia)). pose proof (Hs m ltac:(lia)).
  assert (0 <= 1 / 2 * (f m + f (S m)) * (s (S m) - s m)) by (apply Rmult_le_pos; lra). lra.
Qed.

(** The integrated loads written on any arrays that extend the inputs. *)
Lemma thrustTorque_ext n Np Tp r c w pc Rhub Rtip ctip wtip rf cf wf Nf Tf x y z cone s :
  extends n Rhub r Rtip rf -> extends n 0 c ctip cf -> extends n 0 w wtip wf ->
  extends n 0 Np 0 Nf -> extends n 0 Tp 0 Tf ->
  defineCurvature (n + 2) rf cf wf pc = (x, y, z, cone, s) ->
  thrustTorque n Np Tp r c w pc Rhub Rtip ctip wtip =
  (trapz (n + 1) (fun i => Nf i * cos (cone i)) s, trapz (n + 1) Tf s,
   trapz (n + 1) (fun i => Nf i * sin (cone i)) s,
   trapz (n + 1) (fun i => Tf i * z i) s, trapz (n + 1) (fun i => Nf i * z i) s).
Proof.
  intros Hr Hc Hw HN HT HC. apply curvature_s in HC. destruct HC as (-> & -> & -> & -> & ->).
  unfold thrustTorque, defineCurvature.
  pose proof (fun i => extends_unique n Rhub r Rtip _ _ i (pad_extends _ _ _ _) Hr) as Er.
  pose proof (fun i => extends_unique n 0 c ctip _ _ i (pad_extends _ _ _ _) Hc) as Ec.
  pose proof (fun i => extends_unique n 0 w wtip _ _ i (pad_extends _ _ _ _) Hw) as Ew.
  pose proof (fun i => extends_unique n 0 Np 0 _ _ i (pad_extends _ _ _ _) HN) as EN.
  pose proof (fun i => extends_unique n 0 Tp 0 _ _ i (pad_extends _ _ _ _) HT) as ET.
  assert (Ex : forall i, (i <= n + 1)%nat -> curv_x (pad n Rhub r Rtip) (pad n 0 c ctip) pc i = curv_x rf cf pc i)
    by (intros; unfold curv_x; rewrite Er, Ec by assumption; reflexivity).
  assert (Ez : forall i, (i <= n + 1)%nat -> curv_z (pad n Rhub r Rtip) (pad n 0 c ctip) pc i = curv_z rf cf pc i)
    by (intros; unfold curv_z; rewrite Er, Ec by assumption; reflexivity).
  assert (Es : forall i, (i <= n + 1)%nat ->
     curv_s (pad n Rhub r Rtip) (pad n 0 c ctip) (pad n 0 w wtip) i = curv_s rf cf wf i).
  { intros i Hi. apply curv_s_ext; intros j Hj; [apply Er|apply Ec|apply Ew]; lia. }
  assert (Eco : forall i, (i <= n + 1)%nat ->
     curv_cone (n + 2) (curv_x (pad n Rhub r Rtip) (pad n 0 c ctip) pc)
               (curv_z (pad n Rhub r Rtip) (pad n 0 c ctip) pc) i
     = curv_cone (n + 2) (curv_x rf cf pc) (curv_z rf cf pc) i).
  { intros i Hi. apply curv_cone_ext; try lia; intros j Hj; [apply Ex|apply Ez]; lia. }
  repeat apply (f_equal2 pair);
    (apply trapz_ext; [|assumption]); intros i Hi; rewrite ?EN, ?ET, ?Eco, ?Ez by assumption; reflexivity.
Qed.

(** ** Statements in the form used by the property file *)
Lemma wind_chain : forall n r c w precone yaw tilt az U rpm hub shear i Vx Vy x y z cone s,
  windComponents n r c w (radians precone) (radians yaw) (radians tilt) (radians az) U rpm hub shear = (Vx, Vy) ->
  defineCurvature n r c w (radians precone) = (x, y, z, cone, s) ->
  let p := station_az precone (c i) (w i) (r i) in
  let h := height az tilt p in
  (0 < 1 + h / hub \/ shear = 0) ->
  let v := add3 (wind_in_blade (sheared U h hub shear) yaw tilt az (degrees (cone i)))
                (rotation_in_blade (rpm * PI / 30) (degrees (cone i)) p) in
  Vx i = c1 v /\ Vy i = c2 v.
Proof.
  intros n r c w precone yaw tilt az U rpm hub shear i Vx Vy x y z cone s HW HC p h Hg v.
  pose proof (wind_components_chain n r c w precone yaw tilt az U rpm hub shear i Vx Vy x y z cone s p HW HC eq_refl Hg) as H.
  cbv zeta in H. fold h in H. unfold v, sheared.
  destruct (Req_EM_T shear 0) as [->|]; [|exact H].
  assert (E : Rpower (1 + h / hub) 0 = 1) by (unfold Rpower; rewrite Rmult_0_l; apply exp_0).
  rewrite E, Rmult_1_r. exact H.
Qed.

Lemma wind_total : forall n r c w precone yaw tilt az U rpm hub shear,
  exists Vx Vy, windComponents n r c w precone yaw tilt az U rpm hub shear = (Vx, Vy).
Proof. intros. unfold windComponents, defineCurvature. eexists; eexists; reflexivity. Qed.

Lemma axisym : forall n r c w pc az az' U rpm hub hub' Vx Vy Vx' Vy' i,
  windComponents n r c w pc 0 0 az U rpm hub 0 = (Vx, Vy) ->
  windComponents n r c w pc 0 0 az' U rpm hub' 0 = (Vx', Vy') ->
  Vx i = Vx' i /\ Vy i = Vy' i.
Proof.
  intros n r c w pc az az' U rpm hub hub' Vx Vy Vx' Vy' i H H'.
  destruct (defineCurvature n r c w pc) as [[[[x y] z] cone] s] eqn:HC.
  destruct (wind_axisymmetric _ _ _ _ _ _ _ _ _ _ _ _ _ _ _ _ i H HC) as [H1 H2].
  destruct (wind_axisymmetric _ _ _ _ _ _ _ _ _ _ _ _ _ _ _ _ i H' HC) as [H3 H4].
  rewrite H1, H2, H3, H4. auto.
Qed.

Lemma straight_blade : forall n r c w precone x y z cone s,
  (2 <= n)%nat -> - 180 < precone <= 180 ->
  (forall j, (S j < n)%nat -> r j < r (S j)) ->
  (forall j, (j < n)%nat -> c j = 0) -> (forall j, (j < n)%nat -> w j = 0) ->
  defineCurvature n r c w (radians precone) = (x, y, z, cone, s) ->
  forall i, (i < n)%nat ->
    cone i = radians precone /\ s i = r i - r 0%nat /\
    z i = r i * cos (radians precone) /\ x i = - r i * sin (radians precone) /\ y i = 0.
Proof.
  intros n r c w precone x y z cone s Hn Hp Hr Hc Hw HC i Hi.
  apply curvature_s in HC. destruct HC as (-> & -> & -> & -> & ->).
  assert (Hpi : - PI < radians precone <= PI).
  { unfold radians. pose proof PI_RGT_0. split; nra. }
  split; [|split; [|split; [|split]]].
  - apply cone_straight; auto. intros j Hj. rewrite !Hc by lia. reflexivity.
  - apply (curv_s_straight r c w n); auto; intros j Hj; [rewrite !Hc by lia|rewrite !Hw by lia]; reflexivity.
  - unfold curv_z. rewrite Hc by lia. ring.
  - unfold curv_x. rewrite Hc by lia. ring.
  - apply Hw; assumption.
Qed.

Lemma path_length : forall n r c w precone x y z cone s,
  defineCurvature n r c w (radians precone) = (x, y, z, cone, s) ->
  (forall i, (x i, y i, z i) = coords (station_az precone (c i) (w i) (r i))) /\
  s 0%nat = 0 /\
  (forall i, s i = polyline (fun j => (x j, y j, z j)) i) /\
  (forall i, s i = polyline (fun j => coords (station (c j) (w j) (r j))) i) /\
  (forall i j, (i <= j)%nat -> s i <= s j) /\
  (forall i j, (i <= j)%nat -> dist3 (x j, y j, z j) (x i, y i, z i) <= s j - s i) /\
  (forall i, x i ^ 2 + y i ^ 2 + z i ^ 2 = c i ^ 2 + w i ^ 2 + r i ^ 2).
Proof.
  intros n r c w precone x y z cone s HC.
  apply curvature_s in HC. destruct HC as (-> & _ & -> & -> & ->).
  assert (Hp : forall i, (curv_x r c (radians precone) i, w i, curv_z r c (radians precone) i)
                = coords (station_az precone (c i) (w i) (r i)))
    by (intros; rewrite station_az_coords; reflexivity).
  assert (Hs : forall i, curv_s r c w i
            = polyline (fun j => (curv_x r c (radians precone) j, w j, curv_z r c (radians precone) j)) i).
  { intros i. rewrite (curv_s_polyline precone).
    induction i as [|i IH]; [reflexivity|]. cbn [polyline]. rewrite IH, !Hp. reflexivity. }
  split; [exact Hp|]. split; [reflexivity|]. split; [exact Hs|]. split.
  { intros i. induction i as [|i IH]; [reflexivity|]. cbn [polyline curv_s]. rewrite IH. reflexivity. }
  split; [intros i j Hij; rewrite !Hs; apply polyline_mono; assumption|].
  split.
  { intros i j Hij. rewrite !Hs.
    apply (polyline_dist (fun j => (curv_x r c (radians precone) j, w j, curv_z r c (radians precone) j))); assumption. }
  intros i. unfold curv_x, curv_z.
  pose proof (sin2_cos2 (radians precone)) as H2. unfold Rsqr in H2.
  assert (H2' : sin (radians precone) * sin (radians precone) = 1 - cos (radians precone) * cos (radians precone)) by lra.
  ring [H2'].
Qed.

Lemma path_precone_indep : forall n r c w p1 p2,
  snd (defineCurvature n r c w p1) = snd (defineCurvature n r c w p2).
Proof. reflexivity. Qed.

Lemma total_cone : forall n r c w precone x y z cone s,
  (2 <= n)%nat ->
  defineCurvature n r c w precone = (x, y, z, cone, s) ->
  (forall i, (S i < n)%nat -> c i <> c (S i) \/ r i <> r (S i)) ->
  exists th : nat -> R,
    (forall i, (S i < n)%nat -> polar_angle (- (x (S i) - x i)) (z (S i) - z i) (th i)) /\
    cone 0%nat = th 0%nat /\ cone (n - 1)%nat = th (n - 2)%nat /\
    (forall i, (S (S i) < n)%nat -> cone (S i) = (th i + th (S i)) / 2).
Proof.
  intros n r c w precone x y z cone s Hn HC Hd.
  apply curvature_s in HC. destruct HC as (-> & -> & -> & -> & ->).
  exists (seg_angle (curv_x r c precone) (curv_z r c precone)).
  split; [|split; [reflexivity|split; [apply cone_last; assumption|]]].
  - intros i Hi. apply atan2_polar. specialize (Hd i Hi). unfold curv_x, curv_z.
    destruct (Req_dec (r (S i) * cos precone + c (S i) * sin precone - (r i * cos precone + c i * sin precone)) 0) as [E|]; [|tauto].
    right. intros E2.
    pose proof (sin2_cos2 precone) as H2. unfold Rsqr in H2.
    assert (Er : (r (S i) - r i) * 1 = 0).
    { rewrite <- H2.
      transitivity (cos precone * (r (S i) * cos precone + c (S i) * sin precone - (r i * cos precone + c i * sin precone))
        + sin precone * (- (- r (S i) * sin precone + c (S i) * cos precone - (- r i * sin precone + c i * cos precone)))); [ring|].
      rewrite E, E2. ring. }
    assert (Ec : (c (S i) - c i) * 1 = 0).
    { rewrite <- H2.
      transitivity (sin precone * (r (S i) * cos precone + c (S i) * sin precone - (r i * cos precone + c i * sin precone))
        - cos precone * (- (- r (S i) * sin precone + c (S i) * cos precone - (- r i * sin precone + c i * cos precone)))); [ring|].
      rewrite E, E2. ring. }
    destruct Hd as [Hd|Hd]; apply Hd; lra.
  - intros i Hi. rewrite cone_mid by lia. replace (S i - 1)%nat with i by lia. reflexivity.
Qed.

(** The five section quantities integrated along the path. *)
Lemma loads_integral : forall n Np Tp r c w pc Rhub Rtip ctip wtip rf cf wf Nf Tf x y z cone s T Y Z Q M,
  extends n Rhub r Rtip rf -> extends n 0 c ctip cf -> extends n 0 w wtip wf ->
  extends n 0 Np 0 Nf -> extends n 0 Tp 0 Tf ->
  increasing_upto (n + 1) rf ->
  defineCurvature (n + 2) rf cf wf pc = (x, y, z, cone, s) ->
  thrustTorque n Np Tp r c w pc Rhub Rtip ctip wtip = (T, Y, Z, Q, M) ->
  forall gT gY gZ gQ gM,
  interpolates (n + 1) s (fun i => Nf i * cos (cone i)) gT ->
  interpolates (n + 1) s Tf gY ->
  interpolates (n + 1) s (fun i => Nf i * sin (cone i)) gZ ->
  interpolates (n + 1) s (fun i => Tf i * z i) gQ ->
  interpolates (n + 1) s (fun i => Nf i * z i) gM ->
  is_RInt gT 0 (s (n + 1)%nat) T /\ is_RInt gY 0 (s (n + 1)%nat) Y /\ is_RInt gZ 0 (s (n + 1)%nat) Z /\
  is_RInt gQ 0 (s (n + 1)%nat) Q /\ is_RInt gM 0 (s (n + 1)%nat) M.
Proof.
  intros n Np Tp r c w pc Rhub Rtip ctip wtip rf cf wf Nf Tf x y z cone s T Y Z Q M
    Hr Hc Hw HN HT Hinc HC HTT gT gY gZ gQ gM H1 H2 H3 H4 H5.
  rewrite (thrustTorque_ext n Np Tp r c w pc Rhub Rtip ctip wtip rf cf wf Nf Tf x y z cone s Hr Hc Hw HN HT HC) in HTT.
  injection HTT; clear HTT; intros <- <- <- <- <-.
  apply curvature_s in HC. destruct HC as (Hs & _).
  assert (Hsi : increasing_upto (n + 1) s) by (rewrite Hs; apply curv_s_incr; exact Hinc).
  assert (H0 : s 0%nat = 0) by (rewrite Hs; reflexivity).
  rewrite <- H0. repeat split; apply trapz_is_RInt; assumption.
Qed.

Lemma loads_interpolants_exist : forall n rf cf wf pc x y z cone s (f : nat -> R),
  increasing_upto (n + 1) rf ->
  defineCurvature (n + 2) rf cf wf pc = (x, y, z, cone, s) ->
  exists g, interpolates (n + 1) s f g.
Proof.
  intros n rf cf wf pc x y z cone s f Hinc HC. apply curvature_s in HC. destruct HC as (-> & _).
  destruct (interpolant_exists (n + 1) (curv_s rf cf wf) f) as (g & Hg & _); [apply curv_s_incr; exact Hinc|].
  exists g; exact Hg.
Qed.

Lemma loads_linear : forall n Np Tp Np' Tp' a b r c w pc Rhub Rtip ctip wtip T Y Z Q M T' Y' Z' Q' M',
  thrustTorque n Np Tp r c w pc Rhub Rtip ctip wtip = (T, Y, Z, Q, M) ->
  thrustTorque n Np' Tp' r c w pc Rhub Rtip ctip wtip = (T', Y', Z', Q', M') ->
  thrustTorque n (fun i => a * Np i + b * Np' i) (fun i => a * Tp i + b * Tp' i) r c w pc Rhub Rtip ctip wtip
  = (a * T + b * T', a * Y + b * Y', a * Z + b * Z', a * Q + b * Q', a * M + b * M').
Proof.
  intros n Np Tp Np' Tp' a b r c w pc Rhub Rtip ctip wtip T Y Z Q M T' Y' Z' Q' M' H H'.
  pose proof (pad_extends n Rhub r Rtip) as Er. pose proof (pad_extends n 0 c ctip) as Ec.
  pose proof (pad_extends n 0 w wtip) as Ew.
  pose proof (pad_extends n 0 Np 0) as EN. pose proof (pad_extends n 0 Tp 0) as ET.
  pose proof (pad_extends n 0 Np' 0) as EN'. pose proof (pad_extends n 0 Tp' 0) as ET'.
  set (Nf := pad n 0 Np 0) in *. set (Tf := pad n 0 Tp 0) in *.
  set (Nf' := pad n 0 Np' 0) in *. set (Tf' := pad n 0 Tp' 0) in *.
  assert (EN'' : extends n 0 (fun i => a * Np i + b * Np' i) 0 (fun i => a * Nf i + b * Nf' i)).
  { destruct EN as (A1 & A2 & A3), EN' as (B1 & B2 & B3). split; [rewrite A1, B1; ring|].
    split; [intros i Hi; rewrite A2, B2 by assumption; reflexivity|rewrite A3, B3; ring]. }
  assert (ET'' : extends n 0 (fun i => a * Tp i + b * Tp' i) 0 (fun i => a * Tf i + b * Tf' i)).
  { destruct ET as (A1 & A2 & A3), ET' as (B1 & B2 & B3). split; [rewrite A1, B1; ring|].
    split; [intros i Hi; rewrite A2, B2 by assumption; reflexivity|rewrite A3, B3; ring]. }
  destruct (defineCurvature (n + 2) (pad n Rhub r Rtip) (pad n 0 c ctip) (pad n 0 w wtip) pc)
    as [[[[x y] z] cone] s] eqn:HC.
  rewrite (thrustTorque_ext _ _ _ _ _ _ _ _ _ _ _ _ _ _ _ _ _ _ _ _ _ Er Ec Ew EN ET HC) in H.
  rewrite (thrustTorque_ext _ _ _ _ _ _ _ _ _ _ _ _ _ _ _ _ _ _ _ _ _ Er Ec Ew EN' ET' HC) in H'.
  rewrite (thrustTorque_ext _ _ _ _ _ _ _ _ _ _ _ _ _ _ _ _ _ _ _ _ _ Er Ec Ew EN'' ET'' HC).
  injection H; injection H'; intros <- <- <- <- <- <- <- <- <- <-.
  rewrite <- !trapz_lin.
  repeat apply (f_equal2 pair); try reflexivity; apply trapz_ext; auto; intros; ring.
Qed.

Lemma thrust_nonneg : forall n Np Tp r c w pc Rhub Rtip ctip wtip rf cf wf x y z cone s T Y Z Q M,
  extends n Rhub r Rtip rf -> extends n 0 c ctip cf -> extends n 0 w wtip wf ->
  defineCurvature (n + 2) rf cf wf pc = (x, y, z, cone, s) ->
  thrustTorque n Np Tp r c w pc Rhub Rtip ctip wtip = (T, Y, Z, Q, M) ->
  (forall i, (i < n)%nat -> 0 <= Np i) ->
  (forall i, (1 <= i <= n)%nat -> - PI / 2 <= cone i <= PI / 2) ->
  0 <= T.
Proof.
  intros n Np Tp r c w pc Rhub Rtip ctip wtip rf cf wf x y z cone s T Y Z Q M Hr Hc Hw HC HT HN Hcone.
  pose proof (pad_extends n 0 Np 0) as EN. pose proof (pad_extends n 0 Tp 0) as ET.
  rewrite (thrustTorque_ext _ _ _ _ _ _ _ _ _ _ _ _ _ _ _ _ _ _ _ _ _ Hr Hc Hw EN ET HC) in HT.
  injection HT; intros _ _ _ _ <-.
  apply curvature_s in HC. destruct HC as (Hs & _).
  apply trapz_nonneg.
  - intros i Hi. destruct EN as (A1 & A2 & A3).
    destruct i as [|i]; [rewrite A1; lra|].
    destruct (Nat.eq_dec i n) as [->|Hne]; [rewrite A3; lra|].
    rewrite A2 by lia. apply Rmult_le_pos; [apply HN; lia|].
    destruct (Hcone (S i)) as [h1 h2]; [lia|]. apply cos_ge_0; lra.
  - intros i Hi. rewrite Hs. cbn [curv_s].
    pose proof (sqrt_pos ((cf (S i) - cf i) ^ 2 + (wf (S i) - wf i) ^ 2 + (rf (S i) - rf i) ^ 2)). lra.
Qed.
