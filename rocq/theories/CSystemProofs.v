(** Lemmas about the model of csystem.py. *)
From Coquelicot Require Import Coquelicot.
From Coq Require Import Reals List String Bool Lra Lia.
From Verif Require Import Prelim CSystem CSystemSpec.
Import ListNotations.
Open Scope R_scope.

Ltac cs_unfold :=
  unfold apply1, windToInertial, inertialToWind, yawToWind, windToYaw, hubToYaw, yawToHub,
    hubToAzimuth, azimuthToHub, azimuthToBlade, bladeToAzimuth, airfoilToBlade, bladeToAirfoil,
    airfoilToProfile, profileToAirfoil, rot_xyz, rot_zxy, rot_yzx, rotateAboutZ.

Lemma vec3_eq (a b c a' b' c' : R) : a = a' -> b = b' -> c = c' -> (a, b, c) = (a', b', c').
Proof. congruence. Qed.
Ltac vec_eq := apply vec3_eq.

Lemma sc1 a : sin a * sin a + cos a * cos a = 1.
Proof. generalize (sin2_cos2 a); unfold Rsqr; auto. Qed.

Lemma radians_neg a : radians (a * -1) = - radians a.
Proof. unfold radians. ring. Qed.
Lemma radians_pos a : radians (a * 1) = radians a.
Proof. unfold radians. ring. Qed.

Definition step (c : conv) (u : vec3) : vec3 := coords (apply1 (of_coords u) c).

Lemma coords_apply1 c v : coords (apply1 v c) = step c (coords v).
Proof. destruct v; destruct c; reflexivity. Qed.

Lemma of_coords_coords u : coords (of_coords u) = u.
Proof. destruct u as [[x y] z]. reflexivity. Qed.

Lemma apply_app cs1 cs2 v : apply (cs1 ++ cs2) v = apply cs2 (apply cs1 v).
Proof. unfold apply. apply fold_left_app. Qed.

Lemma coords_apply_ext cs : forall v w, coords v = coords w -> coords (apply cs v) = coords (apply cs w).
Proof.
  induction cs as [|c cs IH]; intros v w H; [exact H|].
  simpl. apply IH. rewrite !coords_apply1, H. reflexivity.
Qed.

(* sin/cos as opaque pair with c^2+s^2=1 *)
Lemma roundtrip1 c v : coords (apply1 (apply1 v c) (inverse c)) = coords v.
Proof.
  destruct v as [x y z dx dy dz].
  destruct c as [a|a|a|a|a|a|a|a|a|a|a|a| |]; unfold inverse; cs_unfold; unfold coords; simpl;
  rewrite ?radians_neg, ?radians_pos, ?sin_neg, ?cos_neg; try reflexivity;
  pose proof (sc1 (radians a)) as H; set (s := sin (radians a)) in *; set (c := cos (radians a)) in *;
  vec_eq; try ring;
  match goal with |- ?l = ?r => 
    replace l with (r * (s * s + c * c)) by ring; rewrite H; ring end.
Qed.

Lemma roundtrip_chain cs : forall v,
  coords (apply (cs ++ rev (map inverse cs)) v) = coords v.
Proof.
  induction cs as [|c cs IH]; intros v; [reflexivity|].
  simpl map. simpl rev. simpl app. rewrite app_assoc.
  change (c :: (cs ++ rev (map inverse cs)) ++ [inverse c])
    with ([c] ++ (cs ++ rev (map inverse cs)) ++ [inverse c]).
  rewrite apply_app, apply_app. simpl apply.
  rewrite coords_apply1, IH, <- coords_apply1. apply roundtrip1.
Qed.

Lemma documented_ok c n ang : documented c = Some (n, ang) ->
  forall v, coords (apply1 v c) = in_rotated_frame n ang (coords v).
Proof.
  intros H v; destruct v as [x y z dx dy dz];
  destruct c as [a|a|a|a|a|a|a|a|a|a|a|a| |]; simpl in H; try discriminate; injection H as <- <-;
  cs_unfold; unfold coords, in_rotated_frame, rodrigues, dot3, cross3, add3, scale3, e1, e2, e3; simpl;
  unfold radians;
  try replace (a * PI / 180) with (a * (PI/180)) by (unfold Rdiv; ring);
  try replace (- a * PI / 180) with (- (a * (PI/180))) by (unfold Rdiv; ring);
  try replace (a * -1 * (PI/180)) with (-(a * (PI/180))) by ring;
  try replace (a * 1 * (PI/180)) with (a * (PI/180)) by ring;
  rewrite ?sin_neg, ?cos_neg;
  vec_eq; ring.
Qed.

Lemma step_dot c u v : dot3 (step c u) (step c v) = dot3 u v.
Proof.
  destruct u as [[a1 a2] a3], v as [[b1 b2] b3].
  destruct c as [a|a|a|a|a|a|a|a|a|a|a|a| |]; unfold step; cs_unfold; unfold coords, dot3; simpl; try ring;
  rewrite ?radians_neg, ?radians_pos, ?sin_neg, ?cos_neg;
  pose proof (sc1 (radians a)) as H; set (s := sin (radians a)) in *; set (c := cos (radians a)) in *;
  assert (Hs : s * s = 1 - c * c) by lra; ring [Hs].
Qed.

Lemma step_cross c u v : no_profile c ->
  step c (cross3 u v) = cross3 (step c u) (step c v).
Proof.
  destruct u as [[a1 a2] a3], v as [[b1 b2] b3]. intros Hnp.
  destruct c as [a|a|a|a|a|a|a|a|a|a|a|a| |]; try contradiction;
  unfold step; cs_unfold; unfold coords, cross3; simpl;
  rewrite ?radians_neg, ?radians_pos, ?sin_neg, ?cos_neg;
  pose proof (sc1 (radians a)) as H; set (s := sin (radians a)) in *; set (c := cos (radians a)) in *;
  assert (Hs : s * s = 1 - c * c) by lra; vec_eq; ring [Hs].
Qed.

Lemma step_cross_profile c u v : ~ no_profile c ->
  step c (cross3 u v) = scale3 (-1) (cross3 (step c u) (step c v)).
Proof.
  destruct u as [[a1 a2] a3], v as [[b1 b2] b3]. intros Hnp.
  destruct c as [a|a|a|a|a|a|a|a|a|a|a|a| |]; try (exfalso; apply Hnp; exact I);
  unfold step; cs_unfold; unfold coords, cross3, scale3; simpl;
  vec_eq; ring.
Qed.

Lemma apply_cons c cs v : apply (c :: cs) v = apply cs (apply1 v c).
Proof. reflexivity. Qed.

Lemma chain_dot cs : forall u v,
  dot3 (coords (apply cs u)) (coords (apply cs v)) = dot3 (coords u) (coords v).
Proof.
  induction cs as [|c cs IH]; intros u v; [reflexivity|].
  rewrite !apply_cons, IH, !coords_apply1. apply step_dot.
Qed.

Lemma coords_cross u v : coords (cross u v) = cross3 (coords u) (coords v).
Proof. destruct u, v; reflexivity. Qed.

Lemma chain_cross cs : Forall no_profile cs -> forall u v w,
  coords w = cross3 (coords u) (coords v) ->
  coords (apply cs w) = cross3 (coords (apply cs u)) (coords (apply cs v)).
Proof.
  induction 1 as [|c cs Hc Hcs IH]; intros u v w E; [exact E|].
  rewrite !apply_cons. apply IH. rewrite !coords_apply1, E. apply step_cross; exact Hc.
Qed.

Lemma scale3_mul a b v : scale3 a (scale3 b v) = scale3 (a * b) v.
Proof. destruct v as [[x y] z]; unfold scale3; vec_eq; ring. Qed.
Lemma scale3_1 v : scale3 1 v = v.
Proof. destruct v as [[x y] z]; unfold scale3; vec_eq; ring. Qed.
Lemma cross_scale_l k u v : cross3 (scale3 k u) v = scale3 k (cross3 u v).
Proof. destruct u as [[a b] c], v as [[x y] z]; unfold cross3, scale3; vec_eq; ring. Qed.

Lemma step_scale c k u : step c (scale3 k u) = scale3 k (step c u).
Proof.
  destruct u as [[x y] z]; destruct c; unfold step; cs_unfold; unfold coords, scale3; simpl;
  vec_eq; ring.
Qed.

Lemma step_add c u v : step c (add3 u v) = add3 (step c u) (step c v).
Proof. destruct u as [[? ?] ?], v as [[? ?] ?]; destruct c; unfold step, coords, add3; simpl; vec_eq; ring. Qed.
Lemma coords_chain_add cs : forall u v w, coords w = add3 (coords u) (coords v) -> coords (apply cs w) = add3 (coords (apply cs u)) (coords (apply cs v)).
Proof.
  induction cs as [|c cs IH]; intros u v w H; [exact H|]. rewrite !apply_cons. apply IH.
  rewrite !coords_apply1, H. apply step_add.
Qed.
Lemma coords_chain_scale cs k : forall u w, coords w = scale3 k (coords u) -> coords (apply cs w) = scale3 k (coords (apply cs u)).
Proof.
  induction cs as [|c cs IH]; intros u w H; [exact H|]. rewrite !apply_cons. apply IH. rewrite !coords_apply1, H. apply step_scale.
Qed.
Lemma chain_cross_general cs : forall u v w,
  coords w = cross3 (coords u) (coords v) ->
  coords (apply cs w) =
    scale3 ((-1) ^ profile_count cs) (cross3 (coords (apply cs u)) (coords (apply cs v))).
Proof.
  assert (G : forall cs k u v w,
    coords w = scale3 k (cross3 (coords u) (coords v)) ->
    coords (apply cs w) =
      scale3 (k * (-1) ^ profile_count cs) (cross3 (coords (apply cs u)) (coords (apply cs v)))).
  { induction cs0 as [|c cs0 IH]; intros k u v w E.
    - simpl. rewrite Rmult_1_r. exact E.
    - rewrite !apply_cons.
      destruct (is_profile c) eqn:Ep.
      + rewrite (IH (k * -1) (apply1 u c) (apply1 v c)).
        * simpl. rewrite Ep. simpl; vec_eq; ring.
        * rewrite !coords_apply1, E, step_scale.
          rewrite step_cross_profile by (destruct c; simpl; try discriminate; tauto).
          apply scale3_mul.
      + rewrite (IH k (apply1 u c) (apply1 v c)).
        * simpl. rewrite Ep. reflexivity.
        * rewrite !coords_apply1, E, step_scale.
          rewrite step_cross by (destruct c; simpl; try discriminate; exact I). reflexivity. }
  intros u v w E. rewrite (G cs 1 u v w).
  - rewrite Rmult_1_l. reflexivity.
  - rewrite scale3_1. exact E.
Qed.

(** ** Derivative dictionaries *)

Local Arguments rotateAboutZ : simpl never.
Local Arguments String.append : simpl never.

Lemma dlookup_dset k k' v d :
  dlookup k (dset k' v d) = if String.eqb k k' then Some v else dlookup k d.
Proof.
  induction d as [|[k0 v0] d IH]; simpl; [reflexivity|].
  destruct (String.eqb k' k0) eqn:E.
  - apply String.eqb_eq in E; subst k0. simpl. destruct (String.eqb k k'); reflexivity.
  - simpl. rewrite IH. destruct (String.eqb k k0) eqn:E2; [|reflexivity].
    apply String.eqb_eq in E2; subst k0. rewrite String.eqb_sym, E. reflexivity.
Qed.

Definition inb (k : string) (ks : list string) : bool := existsb (String.eqb k) ks.

Lemma inb_In k ks : inb k ks = true <-> In k ks.
Proof.
  unfold inb. rewrite existsb_exists. split.
  - intros [x [H1 H2]]. apply String.eqb_eq in H2. subst; auto.
  - intros H; exists k; split; auto. apply String.eqb_refl.
Qed.

Lemma dlookup_fold (f : string -> R) k ks : forall d,
  dlookup k (fold_left (fun d k => dset k (f k) d) ks d) =
  if inb k ks then Some (f k) else dlookup k d.
Proof.
  induction ks as [|k0 ks IH]; intros d; simpl; [reflexivity|].
  rewrite IH. destruct (inb k ks) eqn:E; [rewrite orb_true_r; reflexivity|].
  rewrite orb_false_r, dlookup_dset.
  destruct (String.eqb k k0) eqn:E2; [|reflexivity].
  apply String.eqb_eq in E2; subst; reflexivity.
Qed.

Lemma dget_dset k k' v d : dget (dset k' v d) k = if String.eqb k k' then v else dget d k.
Proof. unfold dget. rewrite dlookup_dset. destruct (String.eqb k k'); reflexivity. Qed.

Lemma dget_fold (f : string -> R) k ks d :
  dget (fold_left (fun d k => dset k (f k) d) ks d) k = if inb k ks then f k else dget d k.
Proof. unfold dget. rewrite dlookup_fold. destruct (inb k ks); reflexivity. Qed.

Lemma dlookup_none k d : dlookup k d = None <-> ~ In k (dkeys d).
Proof.
  induction d as [|[k0 v0] d IH]; simpl; [tauto|].
  destruct (String.eqb k k0) eqn:E.
  - apply String.eqb_eq in E; subst. split; [discriminate|intros H; exfalso; apply H; auto].
  - apply String.eqb_neq in E. rewrite IH. split; intros H; [intros [H1|H1]; [congruence|tauto]|tauto].
Qed.

Definition base_key (k : string) : bool :=
  (String.eqb k "dx" || String.eqb k "dy" || String.eqb k "dz")%bool.

Lemma inb_angle_keys k d :
  inb k (angle_keys d) = (negb (base_key k) && inb k (dkeys d))%bool.
Proof.
  unfold angle_keys. apply eq_true_iff_eq. rewrite inb_In, filter_In, andb_true_iff, inb_In.
  unfold base_key. tauto.
Qed.

Lemma inb_dkeys k d : inb k (dkeys d) = match dlookup k d with Some _ => true | None => false end.
Proof.
  destruct (dlookup k d) eqn:E.
  - apply inb_In. destruct (in_dec string_dec k (dkeys d)) as [H|H]; auto.
    apply dlookup_none in H. congruence.
  - apply dlookup_none in E. destruct (inb k (dkeys d)) eqn:E2; auto. apply inb_In in E2. tauto.
Qed.

(** Invariant: the three dictionaries have the same keys, among them dx, dy, dz. *)
Definition has (k : string) (d : dict) : bool := inb k (dkeys d).
Definition wfd (v : dvec) : Prop :=
  (forall k, has k (ddx v) = has k (ddy v)) /\ (forall k, has k (ddx v) = has k (ddz v)) /\
  (forall k, base_key k = true -> has k (ddx v) = true).

Lemma dget_nokey k d : has k d = false -> dget d k = 0.
Proof. unfold has, dget. rewrite inb_dkeys. destruct (dlookup k d); [discriminate|reflexivity]. Qed.

Section Rot.
Variables (x y z : R) (dx dy dz : dict) (th : R) (name : string) (rev : bool).
Hypothesis Hxy : forall k, has k dx = has k dy.
Hypothesis Hxz : forall k, has k dx = has k dz.
Hypothesis Hbase : forall k, base_key k = true -> has k dx = true.
Hypothesis Hname : base_key ("d" ++ name) = false.

Let sg := if rev then -1 else 1.
Let c := cos (radians (th * sg)).
Let s := sin (radians (th * sg)).
Let out := rotateAboutZ x y z dx dy dz th name rev.
Let dxn := snd (fst (fst out)).
Let dyn := snd (fst out).
Let dzn := snd out.

Lemma rot_keys k :
  has k dxn = (has k dx || String.eqb k ("d" ++ name))%bool /\
  has k dyn = (has k dx || String.eqb k ("d" ++ name))%bool /\
  has k dzn = (has k dx || String.eqb k ("d" ++ name))%bool.
Proof.
  unfold dxn, dyn, dzn, out, rotateAboutZ, has; cbv zeta; cbn [fst snd].
  rewrite !inb_dkeys, !dlookup_fold, inb_angle_keys, !dlookup_dset.
  specialize (Hbase k). unfold has in Hbase. rewrite inb_dkeys in *.
  unfold base_key in *.
  remember ("d" ++ name)%string as dn eqn:Edn.
  destruct (dlookup k dx); cbn [orb]; rewrite ?andb_false_r, ?andb_true_r.
  - destruct (String.eqb k dn); destruct (String.eqb k "dx"), (String.eqb k "dy"), (String.eqb k "dz"); simpl; auto.
  - destruct (String.eqb k dn); destruct (String.eqb k "dx"), (String.eqb k "dy"), (String.eqb k "dz"); simpl in *; auto;
    specialize (Hbase eq_refl); discriminate.
Qed.

(** Any key other than the new angle's, or the angle's key if already there,
    is transported linearly. *)
Lemma rot_transport k : k <> ("d" ++ name)%string \/ has k dx = true ->
  dget dxn k = dget dx k * c + dget dy k * s /\
  dget dyn k = - dget dx k * s + dget dy k * c /\
  dget dzn k = dget dz k.
Proof.
  intros Hk. unfold dxn, dyn, dzn, out, rotateAboutZ; cbv zeta; cbn [fst snd].
  rewrite (dget_fold (fun k => dget dx k * _ + dget dy k * _)),
    (dget_fold (fun k => - dget dx k * _ + dget dy k * _)), (dget_fold (fun k => dget dz k)).
  rewrite inb_angle_keys, !dget_dset. fold sg. fold c. fold s.
  pose proof (Hxy k) as H1; pose proof (Hxz k) as H2. fold (has k dx).
  destruct (base_key k) eqn:Eb.
  - cbn [negb andb]. assert (En : String.eqb k ("d" ++ name) = false).
    { apply String.eqb_neq. intros ->. congruence. }
    rewrite En. unfold base_key in Eb.
    destruct (String.eqb k "dz") eqn:E3; [apply String.eqb_eq in E3; subst; repeat split; reflexivity|].
    destruct (String.eqb k "dy") eqn:E2; [apply String.eqb_eq in E2; subst; repeat split; reflexivity|].
    destruct (String.eqb k "dx") eqn:E1; [apply String.eqb_eq in E1; subst; repeat split; reflexivity|].
    discriminate.
  - cbn [negb andb]. destruct (has k dx) eqn:Eh; [auto|].
    assert (En : String.eqb k ("d" ++ name) = false).
    { apply String.eqb_neq. destruct Hk; congruence. }
    rewrite En. unfold base_key in Eb.
    apply orb_false_elim in Eb; destruct Eb as [Eb E3]. apply orb_false_elim in Eb; destruct Eb as [E1 E2].
    rewrite E1, E2, E3.
    rewrite (dget_nokey k dx), (dget_nokey k dy), (dget_nokey k dz) by congruence.
    change (dget [] k) with 0. repeat split; ring.
Qed.

(** The new angle's key, when not there before, gets the direct term. *)
Lemma rot_direct : has ("d" ++ name) dx = false ->
  dget dxn ("d" ++ name) = (- x * s + y * c) * radians sg /\
  dget dyn ("d" ++ name) = (- x * c - y * s) * radians sg /\
  dget dzn ("d" ++ name) = 0.
Proof.
  intros Hk. unfold dxn, dyn, dzn, out, rotateAboutZ; cbv zeta; cbn [fst snd].
  rewrite (dget_fold (fun k => dget dx k * _ + dget dy k * _)),
    (dget_fold (fun k => - dget dx k * _ + dget dy k * _)), (dget_fold (fun k => dget dz k)).
  rewrite inb_angle_keys, !dget_dset.
  fold (has ("d" ++ name) dx). rewrite Hk, andb_false_r, String.eqb_refl. auto.
Qed.
End Rot.

(** Derivative of one step with respect to its own angle (degrees). *)
Definition dstep (c : conv) (u : vec3) : vec3 :=
  let '(x, y, z) := u in
  match c with
  | WindToInertial a | YawToWind a | BladeToAirfoil a =>
      let s := sin (radians (a * -1)) in let c := cos (radians (a * -1)) in
      ((- x * s + y * c) * radians (-1), (- x * c - y * s) * radians (-1), 0)
  | InertialToWind a | WindToYaw a | AirfoilToBlade a =>
      let s := sin (radians (a * 1)) in let c := cos (radians (a * 1)) in
      ((- x * s + y * c) * radians 1, (- x * c - y * s) * radians 1, 0)
  | HubToYaw a | AzimuthToBlade a =>
      let s := sin (radians (a * -1)) in let c := cos (radians (a * -1)) in
      ((- z * c - x * s) * radians (-1), 0, (- z * s + x * c) * radians (-1))
  | YawToHub a | BladeToAzimuth a =>
      let s := sin (radians (a * 1)) in let c := cos (radians (a * 1)) in
      ((- z * c - x * s) * radians 1, 0, (- z * s + x * c) * radians 1)
  | HubToAzimuth a =>
      let s := sin (radians (a * 1)) in let c := cos (radians (a * 1)) in
      (0, (- y * s + z * c) * radians 1, (- y * c - z * s) * radians 1)
  | AzimuthToHub a =>
      let s := sin (radians (a * -1)) in let c := cos (radians (a * -1)) in
      (0, (- y * s + z * c) * radians (-1), (- y * c - z * s) * radians (-1))
  | AirfoilToProfile | ProfileToAirfoil => (0, 0, 0)
  end.

Lemma wfd_fresh x y z : wfd (fresh x y z).
Proof. repeat split; unfold has; simpl; intros; auto. unfold base_key in H. unfold inb; simpl. rewrite orb_false_r, orb_assoc. exact H. Qed.

Lemma angle_name_base c n a : angle_of c = Some (n, a) -> base_key ("d" ++ n) = false.
Proof. destruct c; simpl; intros H; inversion H; subst; reflexivity. Qed.

Ltac split_rot H :=
  destruct H as (? & ? & ?).

Lemma apply1_keys v c : wfd v ->
  wfd (apply1 v c) /\
  forall k, has k (ddx (apply1 v c)) =
    (has k (ddx v) || match angle_of c with Some (n, _) => String.eqb k ("d" ++ n) | None => false end)%bool.
Proof.
  intros (H1 & H2 & H3). destruct v as [x y z dx dy dz]; simpl in *.
  assert (H1' : forall k, has k dy = has k dz) by (intros; rewrite <- H1; auto).
  assert (Hy : forall k, base_key k = true -> has k dy = true) by (intros; rewrite <- H1; auto).
  assert (Hz : forall k, base_key k = true -> has k dz = true) by (intros; rewrite <- H2; auto).
  assert (Xy : forall th nm rv, base_key ("d" ++ nm) = false ->
    wfd (rot_xyz (mkDV x y z dx dy dz) th nm rv) /\
    forall k, has k (ddx (rot_xyz (mkDV x y z dx dy dz) th nm rv)) = (has k dx || String.eqb k ("d" ++ nm))%bool).
  { intros th nm rv Hn. pose proof (rot_keys x y z dx dy dz th nm rv H3) as K.
    unfold rot_xyz; cbn [vx vy vz ddx ddy ddz].
    destruct (rotateAboutZ x y z dx dy dz th nm rv) as [[[[[a1 a2] a3] a4] a5] a6]; simpl in *.
    split; [|intros k; destruct (K k) as (?&?&?); auto].
    split; [|split]; simpl; [intros k|intros k|intros k Hb]; destruct (K k) as (K1&K2&K3); try congruence.
    rewrite ?K1, ?K2, ?K3, H3; auto. }
  assert (Zx : forall th nm rv, base_key ("d" ++ nm) = false ->
    wfd (rot_zxy (mkDV x y z dx dy dz) th nm rv) /\
    forall k, has k (ddx (rot_zxy (mkDV x y z dx dy dz) th nm rv)) = (has k dx || String.eqb k ("d" ++ nm))%bool).
  { intros th nm rv Hn. pose proof (rot_keys z x y dz dx dy th nm rv Hz) as K.
    unfold rot_zxy; cbn [vx vy vz ddx ddy ddz].
    destruct (rotateAboutZ z x y dz dx dy th nm rv) as [[[[[a1 a2] a3] a4] a5] a6]; simpl in *.
    split; [|intros k; destruct (K k) as (?&?&?); rewrite H2; auto].
    split; [|split]; simpl; [intros k|intros k|intros k Hb]; destruct (K k) as (K1&K2&K3); try congruence.
    rewrite ?K1, ?K2, ?K3, Hz; auto. }
  assert (Yz : forall th nm rv, base_key ("d" ++ nm) = false ->
    wfd (rot_yzx (mkDV x y z dx dy dz) th nm rv) /\
    forall k, has k (ddx (rot_yzx (mkDV x y z dx dy dz) th nm rv)) = (has k dx || String.eqb k ("d" ++ nm))%bool).
  { intros th nm rv Hn. pose proof (rot_keys y z x dy dz dx th nm rv Hy) as K.
    unfold rot_yzx; cbn [vx vy vz ddx ddy ddz].
    destruct (rotateAboutZ y z x dy dz dx th nm rv) as [[[[[a1 a2] a3] a4] a5] a6]; simpl in *.
    split; [|intros k; destruct (K k) as (?&?&?); rewrite H1; auto].
    split; [|split]; simpl; [intros k|intros k|intros k Hb]; destruct (K k) as (K1&K2&K3); try congruence.
    rewrite ?K1, ?K2, ?K3, Hy; auto. }
  destruct c; unfold apply1, windToInertial, inertialToWind, yawToWind, windToYaw, hubToYaw, yawToHub,
    hubToAzimuth, azimuthToHub, azimuthToBlade, bladeToAzimuth, airfoilToBlade, bladeToAirfoil;
  simpl angle_of; cbv iota beta;
  first [ apply Xy; reflexivity | apply Zx; reflexivity | apply Yz; reflexivity | idtac ];
  (split; [repeat split; simpl; intros; auto|intros k; simpl; rewrite orb_false_r; auto]).
Qed.

Lemma apply1_transport v c k : wfd v ->
  (forall n a, angle_of c = Some (n, a) -> k <> ("d" ++ n)%string \/ has k (ddx v) = true) ->
  dcol (apply1 v c) k = step c (dcol v k).
Proof.
  intros (H1 & H2 & H3) Hk. destruct v as [x y z dx dy dz]; simpl in *.
  assert (H1' : forall k, has k dy = has k dz) by (intros; rewrite <- H1; auto).
  assert (Hy : forall k, base_key k = true -> has k dy = true) by (intros; rewrite <- H1; auto).
  assert (Hz : forall k, base_key k = true -> has k dz = true) by (intros; rewrite <- H2; auto).
  assert (Hyx : forall k, has k dy = has k dx) by auto.
  assert (Hzx : forall k, has k dz = has k dx) by auto.
  assert (Hzy : forall k, has k dz = has k dy) by auto.
  destruct c as [a|a|a|a|a|a|a|a|a|a|a|a| |];
  unfold step, apply1, windToInertial, inertialToWind, yawToWind, windToYaw, hubToYaw, yawToHub,
    hubToAzimuth, azimuthToHub, azimuthToBlade, bladeToAzimuth, airfoilToBlade, bladeToAirfoil, dcol, coords, of_coords;
  cbn [vx vy vz ddx ddy ddz]; try reflexivity;
  specialize (Hk _ _ eq_refl);
  match goal with
  | |- context [rot_xyz _ ?th ?nm ?rv] =>
      pose proof (rot_transport x y z dx dy dz th nm rv H1 H2 eq_refl k Hk) as K;
      unfold rot_xyz; cbn [vx vy vz ddx ddy ddz];
      destruct (rotateAboutZ x y z dx dy dz th nm rv) as [[[[[a1 a2] a3] a4] a5] a6]
  | |- context [rot_zxy _ ?th ?nm ?rv] =>
      rewrite H2 in Hk;
      pose proof (rot_transport z x y dz dx dy th nm rv Hzx Hzy eq_refl k Hk) as K;
      unfold rot_zxy; cbn [vx vy vz ddx ddy ddz];
      destruct (rotateAboutZ z x y dz dx dy th nm rv) as [[[[[a1 a2] a3] a4] a5] a6]
  | |- context [rot_yzx _ ?th ?nm ?rv] =>
      rewrite H1 in Hk;
      pose proof (rot_transport y z x dy dz dx th nm rv H1' Hyx eq_refl k Hk) as K;
      unfold rot_yzx; cbn [vx vy vz ddx ddy ddz];
      destruct (rotateAboutZ y z x dy dz dx th nm rv) as [[[[[a1 a2] a3] a4] a5] a6]
  end; simpl in K; destruct K as (K1 & K2 & K3); simpl; rewrite K1, K2, K3; reflexivity.
Qed.

Lemma apply1_direct v c n a : wfd v -> angle_of c = Some (n, a) ->
  has ("d" ++ n) (ddx v) = false ->
  dcol (apply1 v c) ("d" ++ n) = dstep c (coords v).
Proof.
  intros (H1 & H2 & H3) Hc Hk. destruct v as [x y z dx dy dz]; simpl in *.
  destruct c as [b|b|b|b|b|b|b|b|b|b|b|b| |]; inversion Hc; subst; clear Hc;
  unfold apply1, windToInertial, inertialToWind, yawToWind, windToYaw, hubToYaw, yawToHub,
    hubToAzimuth, azimuthToHub, azimuthToBlade, bladeToAzimuth, airfoilToBlade, bladeToAirfoil, dcol, coords;
  match goal with
  | |- context [rot_xyz _ ?th ?nm ?rv] =>
      pose proof (rot_direct x y z dx dy dz th nm rv Hk) as K;
      unfold rot_xyz; cbn [vx vy vz ddx ddy ddz];
      destruct (rotateAboutZ x y z dx dy dz th nm rv) as [[[[[a1 a2] a3] a4] a5] a6]
  | |- context [rot_zxy _ ?th ?nm ?rv] =>
      rewrite H2 in Hk;
      pose proof (rot_direct z x y dz dx dy th nm rv Hk) as K;
      unfold rot_zxy; cbn [vx vy vz ddx ddy ddz];
      destruct (rotateAboutZ z x y dz dx dy th nm rv) as [[[[[a1 a2] a3] a4] a5] a6]
  | |- context [rot_yzx _ ?th ?nm ?rv] =>
      rewrite H1 in Hk;
      pose proof (rot_direct y z x dy dz dx th nm rv Hk) as K;
      unfold rot_yzx; cbn [vx vy vz ddx ddy ddz];
      destruct (rotateAboutZ y z x dy dz dx th nm rv) as [[[[[a1 a2] a3] a4] a5] a6]
  end; simpl in K; destruct K as (K1 & K2 & K3); simpl; rewrite K1, K2, K3; reflexivity.
Qed.
