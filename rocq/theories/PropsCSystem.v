(** Property theorems for ccblade/csystem.py (C01-C06, C66). *)
From Coquelicot Require Import Coquelicot.
From Coq Require Import Reals List String Bool Lra.
From Verif Require Import Prelim CSystem CSystemSpec CSystemProofs CSystemDeriv.
Import ListNotations.
Open Scope R_scope.

(** C01. Any conversion followed by its inverse returns the vector. *)
Theorem C01_roundtrip : forall (c : conv) (v : dvec),
  coords (apply [c; inverse c] v) = coords v.
Proof. exact (fun c v => roundtrip1 c v). Qed.
Print Assumptions C01_roundtrip.

(** C01. Any chain followed by the reversed chain of inverses returns the vector. *)
Theorem C01_roundtrip_chain : forall (cs : list conv) (v : dvec),
  coords (apply (cs ++ rev (map inverse cs)) v) = coords v.
Proof. exact roundtrip_chain. Qed.
Print Assumptions C01_roundtrip_chain.

(** C02. Chains preserve dot products (hence lengths). *)
Theorem C02_dot_preserved : forall (cs : list conv) (u v : dvec),
  dot3 (coords (apply cs u)) (coords (apply cs v)) = dot3 (coords u) (coords v).
Proof. exact chain_dot. Qed.
Print Assumptions C02_dot_preserved.

(** C02. Chains that avoid the profile frame commute with the cross product. *)
Theorem C02_cross_preserved : forall (cs : list conv), Forall no_profile cs ->
  forall u v : dvec,
  coords (apply cs (cross u v)) = cross3 (coords (apply cs u)) (coords (apply cs v)).
Proof. exact (fun cs H u v => chain_cross cs H u v (cross u v) (coords_cross u v)). Qed.
Print Assumptions C02_cross_preserved.

Example C02_example :
  Forall no_profile [WindToYaw 10; YawToHub 5; HubToAzimuth 90; AzimuthToBlade 3; BladeToAirfoil 20].
Proof. repeat constructor. Qed.

(** C66. Each conversion gives the components of the vector in the frame rotated
    about the documented axis, in the documented sense, by the given angle. *)
Theorem C66_documented_axis : forall (c : conv) (n : vec3) (ang : R),
  documented c = Some (n, ang) ->
  forall v : dvec, coords (apply1 v c) = in_rotated_frame n ang (coords v).
Proof. exact documented_ok. Qed.
Print Assumptions C66_documented_axis.

Example C66_example : documented (AzimuthToBlade 2.5) = Some (scale3 (-1) e2, 2.5).
Proof. reflexivity. Qed.

(** C03. The profile frame is not right handed. *)
Theorem C03_right_handed_refuted : exists (u v : dvec),
  coords (airfoilToProfile (cross u v)) <>
  cross3 (coords (airfoilToProfile u)) (coords (airfoilToProfile v)).
Proof. exact profile_not_right_handed. Qed.
Print Assumptions C03_right_handed_refuted.

(** C03. What does hold: each passage through the profile conversion flips handedness,
    everything else preserves it. *)
Theorem C03_handedness_law : forall (cs : list conv) (u v : dvec),
  coords (apply cs (cross u v)) =
    scale3 ((-1) ^ profile_count cs) (cross3 (coords (apply cs u)) (coords (apply cs v))).
Proof. exact (fun cs u v => chain_cross_general cs u v (cross u v) (coords_cross u v)). Qed.
Print Assumptions C03_handedness_law.

(** C04. Entries for the initial components are the exact partial derivatives. *)
Theorem C04_component_derivatives : forall (cs : list conv) (x y z : R),
  vderive (fun t => coords (apply cs (fresh t y z))) x (dcol (apply cs (fresh x y z)) "dx") /\
  vderive (fun t => coords (apply cs (fresh x t z))) y (dcol (apply cs (fresh x y z)) "dy") /\
  vderive (fun t => coords (apply cs (fresh x y t))) z (dcol (apply cs (fresh x y z)) "dz").
Proof. exact initial_derive. Qed.
Print Assumptions C04_component_derivatives.

(** C04. Entries for angles are the exact partial derivatives when no angle is reused. *)
Theorem C04_angle_derivatives : forall (cs : list conv) (x y z : R) (k : string) (a : R),
  NoDup (angle_names cs) ->
  first_angle k cs = Some a ->
  vderive (fun t => coords (apply (set_angle k t cs) (fresh x y z))) a
          (dcol (apply cs (fresh x y z)) ("d" ++ k)).
Proof. exact angle_derive_nodup. Qed.
Print Assumptions C04_angle_derivatives.

Example C04_example :
  let cs := [WindToYaw 10; YawToHub 5; HubToAzimuth 90; AzimuthToBlade 3] in
  NoDup (angle_names cs) /\ first_angle "azimuth" cs = Some 90.
Proof. split; [repeat constructor; simpl; intuition discriminate | reflexivity]. Qed.

(** C04. No dictionary read of the code can miss its key: in every reachable
    vector the three dictionaries have the same keys, namely dx, dy, dz and "d" ++ name for the
    angles used. *)
Theorem C04_no_keyerror : forall (cs : list conv) (x y z : R) (k : string),
  let v := apply cs (fresh x y z) in
  (In k (dkeys (ddx v)) <-> In k (dkeys (ddy v))) /\
  (In k (dkeys (ddx v)) <-> In k (dkeys (ddz v))) /\
  In "dx"%string (dkeys (ddx v)) /\ In "dy"%string (dkeys (ddx v)) /\ In "dz"%string (dkeys (ddx v)) /\
  (In k (angle_names cs) -> In ("d" ++ k)%string (dkeys (ddx v))).
Proof. exact csystem_no_keyerror. Qed.
Print Assumptions C04_no_keyerror.

(** C05. With a repeated angle the entry is wrong: going to the yaw frame and
    back is the identity for every angle, yet the entry is non-zero whenever the vector
    has a horizontal component. *)
Theorem C05_repeated_angle_refuted : forall (psi x y z : R), x <> 0 \/ y <> 0 ->
  (forall t, coords (apply [WindToYaw t; YawToWind t] (fresh x y z)) = (x, y, z)) /\
  dcol (apply [WindToYaw psi; YawToWind psi] (fresh x y z)) "dyaw" <> (0, 0, 0).
Proof. exact repeated_angle_wrong. Qed.
Print Assumptions C05_repeated_angle_refuted.

(** C05. What the entry is, for every chain: the derivative with respect to the
    first occurrence of the angle only. *)
Theorem C05_first_occurrence : forall (cs : list conv) (x y z : R) (k : string) (a : R),
  first_angle k cs = Some a ->
  vderive (fun t => coords (apply (set_first k t cs) (fresh x y z))) a
          (dcol (apply cs (fresh x y z)) ("d" ++ k)).
Proof. exact angle_derive_first. Qed.
Print Assumptions C05_first_occurrence.

Example C05_example : first_angle "yaw" [WindToYaw 7; YawToHub 2; HubToYaw 2; YawToWind 7] = Some 7.
Proof. reflexivity. Qed.

(** C06. Algebra of the cross product. *)
Theorem C06_cross_algebra : forall (u v w : dvec) (k : R),
  let X a b := coords (cross a b) in
  X (fresh 1 0 0) (fresh 0 1 0) = (0, 0, 1) /\
  X u v = scale3 (-1) (X v u) /\
  dot3 (X u v) (coords u) = 0 /\ dot3 (X u v) (coords v) = 0 /\
  dot3 (X u v) (X u v) + dot3 (coords u) (coords v) * dot3 (coords u) (coords v)
    = dot3 (coords u) (coords u) * dot3 (coords v) (coords v) /\
  X (dv_add u (Vec w)) v = add3 (X u v) (X w v) /\
  X (dv_mul u (Num k)) v = scale3 k (X u v).
Proof. exact cross_algebra. Qed.
Print Assumptions C06_cross_algebra.

(** C06. The arrays of cross_deriv are the Jacobian of cross, along all curves. *)
Theorem C06_cross_jacobian : forall (a b : R -> vec3) (t : R) (da db : vec3),
  vderive a t da -> vderive b t db ->
  let '((dxa, dxb), (dya, dyb), (dza, dzb)) := cross_deriv (of_coords (a t)) (of_coords (b t)) in
  vderive (fun s => coords (cross (of_coords (a s)) (of_coords (b s)))) t
    (dot3 dxa da + dot3 dxb db, dot3 dya da + dot3 dyb db, dot3 dza da + dot3 dzb db).
Proof. exact cross_jacobian. Qed.
Print Assumptions C06_cross_jacobian.

Example C06_example : vderive (fun t => (t, 2 * t, 3)) 1 (1, 2, 0).
Proof. split; [|split]; unfold c1, c2, c3; simpl; auto_derive; auto; ring. Qed.

(** C06. cross_deriv_array holds the same numbers, for any two distinct names. *)
Theorem C06_cross_array : forall (a b : dvec) (na nb : string), na <> nb ->
  let '(dx, dy, dz) := cross_deriv_array a b na nb in
  let row d n := (dget d ("d" ++ n ++ "x"), dget d ("d" ++ n ++ "y"), dget d ("d" ++ n ++ "z")) in
  cross_deriv a b = ((row dx na, row dx nb), (row dy na, row dy nb), (row dz na, row dz nb)).
Proof. exact cross_array_entries. Qed.
Print Assumptions C06_cross_array.

Example C06_names : "a"%string <> "b"%string.
Proof. discriminate. Qed.

(** C81. The arithmetic operators, with another vector or a number as second operand, act component by component; the
    in-place forms give the same components and keep the stored derivatives. *)
Theorem C81_operators : forall (u : dvec) (o : operand),
  coords (dv_neg u) = scale3 (-1) (coords u) /\
  coords (dv_add u o) = add3 (coords u) (spread o) /\
  add3 (coords (dv_sub u o)) (spread o) = coords u /\
  coords (dv_mul u o) = mul3 (coords u) (spread o) /\
  (nonzero3 (spread o) -> mul3 (coords (dv_truediv u o)) (spread o) = coords u).
Proof.
  intros u o. assert (S : spread o = (ox o, oy o, oz o)) by (destruct o; reflexivity). rewrite S. clear S.
  unfold dv_neg, dv_add, dv_sub, dv_mul, dv_truediv, coords, scale3, add3, mul3, nonzero3. cbn [vx vy vz fresh].
  repeat split; try (apply vec3_eq; ring). intros (A & B & C). apply vec3_eq; field; assumption.
Qed.
Print Assumptions C81_operators.

Theorem C81_in_place : forall (u : dvec) (o : operand),
  coords (dv_iadd u o) = coords (dv_add u o) /\ coords (dv_isub u o) = coords (dv_sub u o) /\
  coords (dv_imul u o) = coords (dv_mul u o) /\
  Forall (fun w => ddx w = ddx u /\ ddy w = ddy u /\ ddz w = ddz u) [dv_iadd u o; dv_isub u o; dv_imul u o].
Proof. intros u o. repeat split. repeat constructor. Qed.
Print Assumptions C81_in_place.

(** C81. Every chain of conversions is linear. *)
Theorem C81_linear : forall (cs : list conv) (u v : dvec) (k : R),
  coords (apply cs (dv_add u (Vec v))) = add3 (coords (apply cs u)) (coords (apply cs v)) /\
  coords (apply cs (dv_sub u (Vec v))) = add3 (coords (apply cs u)) (scale3 (-1) (coords (apply cs v))) /\
  coords (apply cs (dv_mul u (Num k))) = scale3 k (coords (apply cs u)) /\
  coords (apply cs (dv_neg u)) = scale3 (-1) (coords (apply cs u)).
Proof.
  intros cs u v k. split; [|split; [|split]].
  - apply coords_chain_add. reflexivity.
  - rewrite <- (coords_chain_scale cs (-1) v (dv_neg v)); [|unfold coords, scale3, dv_neg; cbn [vx vy vz fresh]; apply vec3_eq; ring].
    apply coords_chain_add. unfold coords, dv_sub, dv_neg, add3, ox, oy, oz. cbn [vx vy vz fresh]. apply vec3_eq; ring.
  - apply coords_chain_scale. unfold coords, dv_mul, scale3, ox, oy, oz. cbn [vx vy vz fresh]. apply vec3_eq; ring.
  - apply coords_chain_scale. unfold coords, dv_neg, scale3. cbn [vx vy vz fresh]. apply vec3_eq; ring.
Qed.
Print Assumptions C81_linear.
Example C81_example : nonzero3 (spread (Vec (fresh 1 2 (-3)))) /\ nonzero3 (spread (Num 7)).
Proof. cbn. lra. Qed.
