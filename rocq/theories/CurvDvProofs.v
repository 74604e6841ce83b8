(** definecurvature_dv, definecurvature_dv2 and windcomponents_dv. *)
From Coquelicot Require Import Coquelicot.
From Coq Require Import Reals Bool Arith Lia Lra.
From Verif Require Import Prelim Num Bem BemGeomSpec BemGeomProofs Cont DeriveLib BemDiff DiffSpec.
Open Scope R_scope.

Section Curv.
Variables (n : nat) (r pc ps : nat -> R -> R) (precone : R -> R) (t : R).
Variables (rd pcd psd : nat -> arr) (preconed : dirs) (nd : nat).
Hypothesis Hr : curves_derive n r t (rd nd).
Hypothesis Hpc : curves_derive n pc t (pcd nd).
Hypothesis Hps : curves_derive n ps t (psd nd).
Hypothesis Hp : is_derive precone t (preconed nd).

Let X := fun s => curv_x (at_time r s) (at_time pc s) (precone s).
Let Z := fun s => curv_z (at_time r s) (at_time pc s) (precone s).
Let XD := curv_xd (at_time r t) (at_time pc t) (precone t) rd pcd preconed nd.
Let ZD := curv_zd (at_time r t) (at_time pc t) (precone t) rd pcd preconed nd.

Lemma x_dv i : (i < n)%nat -> is_derive (fun s => X s i) t (XD i).
Proof.
  intros Hi. pose proof (Hr i Hi) as R1. pose proof (Hpc i Hi) as R2.
  unfold X, XD, curv_x, curv_xd, at_time. der. ring.
Qed.
Lemma z_dv i : (i < n)%nat -> is_derive (fun s => Z s i) t (ZD i).
Proof.
  intros Hi. pose proof (Hr i Hi) as R1. pose proof (Hpc i Hi) as R2.
  unfold Z, ZD, curv_z, curv_zd, at_time. der. ring.
Qed.

Hypothesis Hseg : proper_segments n (X t) (Z t).

Lemma seg_dv i : (S i < n)%nat -> is_derive (fun s => seg_angle (X s) (Z s) i) t (seg_coned (X t) (Z t) XD ZD i).
Proof.
  intros Hi. pose proof (x_dv i ltac:(lia)) as x0. pose proof (x_dv (S i) Hi) as x1.
  pose proof (z_dv i ltac:(lia)) as z0. pose proof (z_dv (S i) Hi) as z1.
  unfold seg_angle, seg_coned. replace (i + 1)%nat with (S i) by lia.
  eapply d_ext; [apply (d_atan2 (fun s => - (X s (S i) - X s i)) (fun s => Z s (S i) - Z s i) t
     (- (XD (S i) - XD i)) (ZD (S i) - ZD i))|].
  - apply d_opp. apply d_minus; assumption.
  - apply d_minus; assumption.
  - destruct (Hseg i Hi) as [H|H]; [left; exact H|right; intros E; apply H; lra].
  - cbv zeta. assert (N : (- (X t (S i) - X t i)) ^ 2 + (Z t (S i) - Z t i) ^ 2 <> 0).
    { pose proof (pow2_ge_0 (- (X t (S i) - X t i))). pose proof (pow2_ge_0 (Z t (S i) - Z t i)).
      apply Rgt_not_eq. destruct (Hseg i Hi) as [H1|H1].
      - assert (H' : Z t (S i) - Z t i <> 0) by lra. pose proof (pow2_gt_0 _ H'). lra.
      - assert (H' : - (X t (S i) - X t i) <> 0) by (intros E; apply H1; lra). pose proof (pow2_gt_0 _ H'). lra. }
    field. exact N.
Qed.

Lemma cone_dv i : (2 <= n)%nat -> (i < n)%nat ->
  is_derive (fun s => curv_cone n (X s) (Z s) i) t (curv_coned n (X t) (Z t) XD ZD i).
Proof.
  intros Hn Hi. unfold curv_coned. destruct (Nat.eqb_spec i 0) as [E|E0].
  - subst i. apply (is_derive_ext (fun s => seg_angle (X s) (Z s) 0)); [reflexivity|]. apply seg_dv. lia.
  - destruct (Nat.eqb_spec i (n - 1)) as [E|E1].
    + subst i. apply (is_derive_ext (fun s => seg_angle (X s) (Z s) (n - 2))).
      { intros s. symmetry. apply cone_last. exact Hn. }
      apply seg_dv. lia.
    + apply (is_derive_ext (fun s => (seg_angle (X s) (Z s) (i - 1) + seg_angle (X s) (Z s) i) / 2)).
      { intros s. symmetry. apply cone_mid; lia. }
      pose proof (seg_dv (i - 1) ltac:(lia)) as S1. pose proof (seg_dv i ltac:(lia)) as S2.
      der; [lra|]. field.
Qed.

Lemma seg_len i : (S i < n)%nat ->
  0 < (pc (S i) t - pc i t) ^ 2 + (ps (S i) t - ps i t) ^ 2 + (r (S i) t - r i t) ^ 2.
Proof.
  intros Hi. pose proof (Hseg i Hi) as H. unfold X, Z, curv_x, curv_z, at_time in H.
  assert (N : pc (S i) t - pc i t <> 0 \/ r (S i) t - r i t <> 0).
  { destruct (Req_dec (pc (S i) t - pc i t) 0) as [E1|]; [|left; assumption].
    destruct (Req_dec (r (S i) t - r i t) 0) as [E2|]; [|right; assumption].
    exfalso. assert (A1 : pc (S i) t = pc i t) by lra. assert (A2 : r (S i) t = r i t) by lra.
    rewrite A1, A2 in H. destruct H as [H|H]; [lra|apply H; reflexivity]. }
  pose proof (pow2_ge_0 (pc (S i) t - pc i t)). pose proof (pow2_ge_0 (ps (S i) t - ps i t)).
  pose proof (pow2_ge_0 (r (S i) t - r i t)).
  destruct N as [N|N]; pose proof (pow2_gt_0 _ N); lra.
Qed.

Lemma s_dv i : (i < n)%nat ->
  is_derive (fun s => curv_s (at_time r s) (at_time pc s) (at_time ps s) i) t
    (curv_sd (at_time r t) (at_time pc t) (at_time ps t) (rd nd) (pcd nd) (psd nd) i).
Proof.
  induction i as [|j IH]; intros Hi; cbn [curv_s curv_sd].
  - apply d_const.
  - specialize (IH ltac:(lia)). pose proof (seg_len j Hi) as HL.
    pose proof (Hr j ltac:(lia)) as R1. pose proof (Hpc j ltac:(lia)) as R2. pose proof (Hps j ltac:(lia)) as R3.
    pose proof (Hr (S j) Hi) as R4. pose proof (Hpc (S j) Hi) as R5. pose proof (Hps (S j) Hi) as R6.
    unfold at_time at 4 5 6 7 8 9.
    match goal with |- context [reqb ?a 0] => replace (reqb a 0) with false end.
    2: { symmetry. apply reqb_false. unfold at_time. lra. }
    apply d_plus; [exact IH|]. unfold at_time. der; [exact HL|]. apply (f_equal2 Rdiv); [|reflexivity]. ring.
Qed.
End Curv.

Lemma curv_dv2_exact : forall n (r pc ps : nat -> R -> R) (precone : R -> R) (t : R)
    (rd pcd psd : nat -> arr) (preconed : dirs) nd, (2 <= n)%nat ->
  curves_derive n r t (rd nd) -> curves_derive n pc t (pcd nd) -> curves_derive n ps t (psd nd) ->
  is_derive precone t (preconed nd) ->
  let f := fun s => defineCurvature n (at_time r s) (at_time pc s) (at_time ps s) (precone s) in
  proper_segments n (out_x (f t)) (out_z (f t)) ->
  let d := fst (defineCurvature_dv2 n (at_time r t) rd (at_time pc t) pcd (at_time ps t) psd (precone t) preconed) in
  let sd := snd (defineCurvature_dv2 n (at_time r t) rd (at_time pc t) pcd (at_time ps t) psd (precone t) preconed) in
  (forall i, (i < n)%nat -> cv_x d i = out_x (f t) i /\ cv_y d i = out_y (f t) i /\ cv_z d i = out_z (f t) i /\
     cv_cone d i = out_cone (f t) i /\ cv_s d i = out_s (f t) i) /\
  curves_derive n (fun i s => out_x (f s) i) t (cv_xd d nd) /\
  curves_derive n (fun i s => out_y (f s) i) t (cv_yd d nd) /\
  curves_derive n (fun i s => out_z (f s) i) t (cv_zd d nd) /\
  curves_derive n (fun i s => out_cone (f s) i) t (cv_coned d nd) /\
  curves_derive n (fun i s => out_s (f s) i) t (sd nd).
Proof.
  intros n r pc ps precone t rd pcd psd preconed nd Hn Hr Hpc Hps Hp f Hseg d sd.
  assert (EX : cv_x d = out_x (f t)).
  { apply FunctionalExtensionality.functional_extensionality. intros i. cbn. unfold curv_x. ring. }
  assert (EZ : cv_z d = out_z (f t)) by reflexivity.
  assert (EC : cv_cone d = out_cone (f t)).
  { change (curv_cone n (cv_x d) (cv_z d) = curv_cone n (out_x (f t)) (out_z (f t))). rewrite EX, EZ. reflexivity. }
  split; [|split; [|split; [|split; [|split]]]].
  - intros i Hi. rewrite EX, EZ, EC. repeat split; reflexivity.
  - intros i Hi. exact (x_dv n r pc precone t rd pcd preconed nd Hr Hpc Hp i Hi).
  - intros i Hi. exact (Hps i Hi).
  - intros i Hi. exact (z_dv n r pc precone t rd pcd preconed nd Hr Hpc Hp i Hi).
  - intros i Hi. change (cv_coned d nd) with (curv_coned n (cv_x d) (cv_z d) (cv_xd d nd) (cv_zd d nd)). rewrite EX, EZ.
    exact (cone_dv n r pc precone t rd pcd preconed nd Hr Hpc Hp Hseg i Hn Hi).
  - intros i Hi. exact (s_dv n r pc ps precone t rd pcd psd nd Hr Hpc Hps Hseg i Hi).
Qed.

(** ** Power law *)
Lemma pow_dv_exact (b e : R -> R) (t b' e' : R) : is_derive b t b' -> is_derive e t e' ->
  (0 < b t \/ forall s, e s = 0) ->
  is_derive (fun s => rpow (b s) (e s)) t (pow_dv (b t) b' (e t) e').
Proof.
  intros Hb He Hc.
  assert (Z0 : (forall s, e s = 0) -> e' = 0).
  { intros Z. apply (is_derive_ext _ (fun _ => 0)) in He; [|exact Z].
    rewrite <- (is_derive_unique _ _ _ He). apply (is_derive_unique _ _ _ (d_const 0 t)). }
  destruct (Rlt_le_dec 0 (b t)) as [P|P].
  - unfold pow_dv. replace (rleb (b t) 0) with false by (symmetry; apply rleb_false; exact P). cbn [andb].
    rewrite !rpow_Rpower by exact P.
    apply (is_derive_ext_loc (fun s => exp (e s * ln (b s)))).
    { generalize (near_pos b t b' Hb P). apply filter_imp. intros s Hs. rewrite rpow_Rpower by exact Hs. reflexivity. }
    der; [exact P|].
    replace (Rpower (b t) (e t - 1)) with (exp (e t * ln (b t)) / b t).
    2: { unfold Rpower. replace ((e t - 1) * ln (b t)) with (e t * ln (b t) + - ln (b t)) by ring.
         rewrite exp_plus, exp_Ropp, exp_ln by exact P. reflexivity. }
    unfold Rpower. field. lra.
  - destruct Hc as [Hc|Z]; [lra|]. rewrite (Z0 Z).
    unfold pow_dv. replace (rleb (b t) 0) with true by (symmetry; apply rleb_true; exact P). rewrite (Z t).
    replace (reqb 0 0) with true by (symmetry; apply reqb_true; reflexivity). cbn [andb orb].
    apply (is_derive_ext (fun _ => 1)); [|apply d_const]. intros s. rewrite (Z s), rpow_0. reflexivity.
Qed.

Lemma wind_dv_exact : forall n (r pc ps : nat -> R -> R)
    (precone yaw tilt azimuth Uinf rpm hubHt shear : R -> R) (t : R)
    (rd pcd psd : nat -> arr) (preconed yawd tiltd azimuthd uinfd rpmd hubhtd sheard : dirs) nd, (2 <= n)%nat ->
  curves_derive n r t (rd nd) -> curves_derive n pc t (pcd nd) -> curves_derive n ps t (psd nd) ->
  is_derive precone t (preconed nd) -> is_derive yaw t (yawd nd) -> is_derive tilt t (tiltd nd) ->
  is_derive azimuth t (azimuthd nd) -> is_derive Uinf t (uinfd nd) -> is_derive rpm t (rpmd nd) ->
  is_derive hubHt t (hubhtd nd) -> is_derive shear t (sheard nd) -> hubHt t <> 0 ->
  let c := defineCurvature n (at_time r t) (at_time pc t) (at_time ps t) (precone t) in
  proper_segments n (out_x c) (out_z c) ->
  (forall i, (i < n)%nat ->
     0 < 1 + height_az (azimuth t) (tilt t) (out_x c i) (out_y c i) (out_z c i) / hubHt t
     \/ forall s, shear s = 0) ->
  let f := fun s => windComponents n (at_time r s) (at_time pc s) (at_time ps s)
             (precone s) (yaw s) (tilt s) (azimuth s) (Uinf s) (rpm s) (hubHt s) (shear s) in
  let d := windComponents_dv n (at_time r t) rd (at_time pc t) pcd (at_time ps t) psd (precone t) preconed
             (yaw t) yawd (tilt t) tiltd (azimuth t) azimuthd (Uinf t) uinfd (rpm t) rpmd (hubHt t) hubhtd
             (shear t) sheard in
  (forall i, (i < n)%nat -> wv_vx d i = fst (f t) i /\ wv_vy d i = snd (f t) i) /\
  curves_derive n (fun i s => fst (f s) i) t (wv_vxd d nd) /\
  curves_derive n (fun i s => snd (f s) i) t (wv_vyd d nd).
Proof.
  intros n r pc ps precone yaw tilt azimuth Uinf rpm hubHt shear t rd pcd psd preconed yawd tiltd azimuthd
    uinfd rpmd hubhtd sheard nd Hn Hr Hpc Hps Hp Hyaw Htilt Haz HU Hrpm Hhub Hsh hub0 c Hseg Hpow f d.
  destruct (curv_dv2_exact n r pc ps precone t rd pcd psd preconed nd Hn Hr Hpc Hps Hp Hseg)
    as (Ev & Dx & Dy & Dz & Dc & _).
  set (g := fun s => defineCurvature n (at_time r s) (at_time pc s) (at_time ps s) (precone s)) in *.
  cbv zeta in Ev, Dx, Dy, Dz, Dc. cbn [fst defineCurvature_dv2] in Ev, Dx, Dy, Dz, Dc.
  set (cv := defineCurvature_dv n (at_time r t) rd (at_time pc t) pcd (at_time ps t) psd (precone t) preconed) in *.
  set (X := fun i s => out_x (g s) i) in *. set (Y := fun i s => out_y (g s) i) in *.
  set (Z := fun i s => out_z (g s) i) in *. set (C := fun i s => out_cone (g s) i) in *.
  set (H := fun i s => height_az (azimuth s) (tilt s) (X i s) (Y i s) (Z i s)).
  set (P := fun i s => rpow (1 + H i s / hubHt s) (shear s)).
  assert (Ef : forall i s, fst (f s) i = Uinf s * P i s *
      ((cos (yaw s) * sin (tilt s) * cos (azimuth s) + sin (yaw s) * sin (azimuth s)) * sin (C i s)
       + cos (yaw s) * cos (tilt s) * cos (C i s)) + - (rpm s * PI / 30) * Y i s * sin (C i s))
    by (intros; reflexivity).
  assert (Ef2 : forall i s, snd (f s) i = Uinf s * P i s *
      (cos (yaw s) * sin (tilt s) * sin (azimuth s) - sin (yaw s) * cos (azimuth s)) + rpm s * PI / 30 * Z i s)
    by (intros; reflexivity).
  set (HD := fun i => cos (tilt t) * (sin (azimuth t) * cv_yd cv nd i + Y i t * (cos (azimuth t) * azimuthd nd)
      + cos (azimuth t) * cv_zd cv nd i + Z i t * - (sin (azimuth t) * azimuthd nd))
      + (Y i t * sin (azimuth t) + Z i t * cos (azimuth t)) * - (sin (tilt t) * tiltd nd)
      - sin (tilt t) * cv_xd cv nd i - X i t * (cos (tilt t) * tiltd nd)).
  assert (DH : forall i, (i < n)%nat -> is_derive (H i) t (HD i)).
  { intros i Hi. pose proof (Dx i Hi). pose proof (Dy i Hi). pose proof (Dz i Hi).
    unfold H, HD, height_az. der. ring. }
  set (PD := fun i => pow_dv (1 + H i t / hubHt t) ((HD i - H i t * hubhtd nd / hubHt t) / hubHt t) (shear t) (sheard nd)).
  assert (DP : forall i, (i < n)%nat -> is_derive (P i) t (PD i)).
  { intros i Hi. pose proof (DH i Hi).
    apply (pow_dv_exact (fun s => 1 + H i s / hubHt s) shear); [|exact Hsh|exact (Hpow i Hi)].
    der; [exact hub0|]. field. exact hub0. }
  assert (Hval : forall i, (i < n)%nat ->
      wv_vx d i = fst (f t) i /\ wv_vy d i = snd (f t) i /\
      wv_vxd d nd i =
        ((cos (yaw t) * sin (tilt t) * cos (azimuth t) + sin (yaw t) * sin (azimuth t)) * sin (C i t)
          + cos (yaw t) * cos (tilt t) * cos (C i t)) * (P i t * uinfd nd + Uinf t * PD i)
        + Uinf t * P i t * (sin (C i t) * (cos (azimuth t) * (sin (tilt t) * - (sin (yaw t) * yawd nd) + cos (yaw t) * (cos (tilt t) * tiltd nd))
             + cos (yaw t) * sin (tilt t) * - (sin (azimuth t) * azimuthd nd) + sin (azimuth t) * (cos (yaw t) * yawd nd)
             + sin (yaw t) * (cos (azimuth t) * azimuthd nd))
           + (cos (yaw t) * sin (tilt t) * cos (azimuth t) + sin (yaw t) * sin (azimuth t)) * (cos (C i t) * cv_coned cv nd i)
           + cos (C i t) * (cos (tilt t) * - (sin (yaw t) * yawd nd) + cos (yaw t) * - (sin (tilt t) * tiltd nd))
           + cos (yaw t) * cos (tilt t) * - (sin (C i t) * cv_coned cv nd i))
        + - (sin (C i t) * (Y i t * (PI * rpmd nd / 30) + rpm t * PI / 30 * cv_yd cv nd i)
             + rpm t * PI / 30 * Y i t * (cos (C i t) * cv_coned cv nd i)) /\
      wv_vyd d nd i =
        (cos (yaw t) * sin (tilt t) * sin (azimuth t) - sin (yaw t) * cos (azimuth t)) * (P i t * uinfd nd + Uinf t * PD i)
        + Uinf t * P i t * (sin (azimuth t) * (sin (tilt t) * - (sin (yaw t) * yawd nd) + cos (yaw t) * (cos (tilt t) * tiltd nd))
            + cos (yaw t) * sin (tilt t) * (cos (azimuth t) * azimuthd nd) - cos (azimuth t) * (cos (yaw t) * yawd nd)
            - sin (yaw t) * - (sin (azimuth t) * azimuthd nd))
        + (Z i t * (PI * rpmd nd / 30) + rpm t * PI / 30 * cv_zd cv nd i)).
  { intros i Hi. destruct (Ev i Hi) as (E1 & E2 & E3 & E4 & _).
    unfold d, windComponents_dv. cbv zeta. fold cv. cbn [wv_vx wv_vy wv_vxd wv_vyd].
    rewrite Ef, Ef2. unfold P, PD, HD, H, height_az. 
    change (cv_x cv i = X i t) in E1. change (cv_y cv i = Y i t) in E2.
    change (cv_z cv i = Z i t) in E3. change (cv_cone cv i = C i t) in E4.
    rewrite <- E1, <- E2, <- E3, <- E4.
    split; [|split; [|split]]; ring. }
  split; [|split].
  - intros i Hi. destruct (Hval i Hi) as (E1 & E2 & _). split; assumption.
  - intros i Hi. destruct (Hval i Hi) as (_ & _ & -> & _).
    apply (is_derive_ext _ _ _ _ (fun s => eq_sym (Ef i s))).
    pose proof (DP i Hi). pose proof (Dy i Hi). pose proof (Dc i Hi).
    eapply d_ext; [repeat der_step; lra|]. cbv beta. field.
  - intros i Hi. destruct (Hval i Hi) as (_ & _ & _ & ->).
    apply (is_derive_ext _ _ _ _ (fun s => eq_sym (Ef2 i s))).
    pose proof (DP i Hi). pose proof (Dz i Hi).
    eapply d_ext; [repeat der_step; lra|]. cbv beta. field.
Qed.

Lemma curv_dv_exact : forall n (r pc ps : nat -> R -> R) (precone : R -> R) (t : R)
    (rd pcd psd : nat -> arr) (preconed : dirs) nd, (2 <= n)%nat ->
  curves_derive n r t (rd nd) -> curves_derive n pc t (pcd nd) -> curves_derive n ps t (psd nd) ->
  is_derive precone t (preconed nd) ->
  let f := fun s => defineCurvature n (at_time r s) (at_time pc s) (at_time ps s) (precone s) in
  proper_segments n (out_x (f t)) (out_z (f t)) ->
  let d := defineCurvature_dv n (at_time r t) rd (at_time pc t) pcd (at_time ps t) psd (precone t) preconed in
  (forall i, (i < n)%nat -> cv_x d i = out_x (f t) i /\ cv_y d i = out_y (f t) i /\ cv_z d i = out_z (f t) i /\
     cv_cone d i = out_cone (f t) i /\ cv_s d i = out_s (f t) i) /\
  curves_derive n (fun i s => out_x (f s) i) t (cv_xd d nd) /\
  curves_derive n (fun i s => out_y (f s) i) t (cv_yd d nd) /\
  curves_derive n (fun i s => out_z (f s) i) t (cv_zd d nd) /\
  curves_derive n (fun i s => out_cone (f s) i) t (cv_coned d nd).
Proof.
  intros n r pc ps precone t rd pcd psd preconed nd Hn Hr Hpc Hps Hp f Hseg d.
  destruct (curv_dv2_exact n r pc ps precone t rd pcd psd preconed nd Hn Hr Hpc Hps Hp Hseg) as (A & B & C & D & E & _).
  exact (conj A (conj B (conj C (conj D E)))).
Qed.
