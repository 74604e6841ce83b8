(** Derivative dictionaries of DirectionVector are true derivatives. *)
From Coquelicot Require Import Coquelicot.
From Coq Require Import Reals List String Bool Lra Lia.
From Verif Require Import Prelim CSystem CSystemSpec CSystemProofs.
Import ListNotations.
Open Scope R_scope.

Lemma is_derive_val (f : R -> R) t a b : is_derive f t a -> a = b -> is_derive f t b.
Proof. intros H <-; exact H. Qed.

Lemma lin_derive (f g : R -> R) t f' g' a b :
  is_derive f t f' -> is_derive g t g' ->
  is_derive (fun t => f t * a + g t * b) t (f' * a + g' * b).
Proof.
  intros Hf Hg. apply is_derive_Reals. apply is_derive_Reals in Hf. apply is_derive_Reals in Hg.
  replace (f' * a + g' * b) with ((f' * a + f t * 0) + (g' * b + g t * 0)) by ring.
  apply (derivable_pt_lim_plus (fun t => f t * a) (fun t => g t * b)).
  - apply (derivable_pt_lim_mult f (fun _ => a)); auto. apply derivable_pt_lim_const.
  - apply (derivable_pt_lim_mult g (fun _ => b)); auto. apply derivable_pt_lim_const.
Qed.

Lemma lin_derive_neg (f g : R -> R) t f' g' a b :
  is_derive f t f' -> is_derive g t g' ->
  is_derive (fun t => - f t * a + g t * b) t (- f' * a + g' * b).
Proof.
  intros Hf Hg. replace (- f' * a + g' * b) with (f' * - a + g' * b) by ring.
  eapply is_derive_ext; [|apply (lin_derive f g t f' g' (- a) b); assumption].
  intros s; simpl; ring.
Qed.

Lemma step_eta c u : step c u = step c (c1 u, c2 u, c3 u).
Proof. destruct u as [[x y] z]; reflexivity. Qed.

Lemma step_derive c u t du : vderive u t du -> vderive (fun t => step c (u t)) t (step c du).
Proof.
  intros (H1 & H2 & H3).
  destruct du as [[d1 d2] d3].
  destruct c as [a|a|a|a|a|a|a|a|a|a|a|a| |];
  (split; [|split]);
  (eapply is_derive_ext; [intros s; rewrite (step_eta _ (u s)); unfold step; cs_unfold; unfold coords; simpl; reflexivity|]);
  unfold step; cs_unfold; unfold coords, c1, c2, c3 in *; simpl in *;
  first [ assumption | apply lin_derive; assumption | apply lin_derive_neg; assumption ].
Qed.

Lemma radians_derive k t : is_derive (fun t => radians (t * k)) t (radians k).
Proof. unfold radians. auto_derive; [trivial|]. ring. Qed.

Lemma step_angle_derive c n a u : angle_of c = Some (n, a) ->
  vderive (fun t => step (with_angle c t) u) a (dstep c u).
Proof.
  intros H. destruct u as [[x y] z].
  destruct c as [b|b|b|b|b|b|b|b|b|b|b|b| |]; inversion H; subst; clear H;
  (split; [|split]); unfold step, with_angle; cs_unfold; unfold coords, dstep, c1, c2, c3; simpl;
  unfold radians; (auto_derive; [trivial|]); ring.
Qed.

Lemma apply_wfd cs : forall v, wfd v -> wfd (apply cs v).
Proof.
  induction cs as [|c cs IH]; intros v H; [exact H|].
  rewrite apply_cons. apply IH. apply apply1_keys; exact H.
Qed.

Lemma apply_has cs : forall v k, wfd v ->
  has ("d" ++ k) (ddx (apply cs v)) = (has ("d" ++ k) (ddx v) || inb k (angle_names cs))%bool.
Proof.
  induction cs as [|c cs IH]; intros v k H.
  - simpl. rewrite orb_false_r. reflexivity.
  - rewrite apply_cons, IH by (apply apply1_keys; exact H).
    destruct (apply1_keys v c H) as [_ K]. rewrite K.
    simpl angle_names. destruct (angle_of c) as [[k' a]|].
    + unfold inb; simpl existsb. rewrite orb_assoc. reflexivity.
    + rewrite orb_false_r. reflexivity.
Qed.

Lemma vderive_ext (u w : R -> vec3) t d :
  (forall s, u s = w s) -> vderive u t d -> vderive w t d.
Proof.
  intros E (A & B & C). split; [|split]; (eapply is_derive_ext; [|eassumption]);
  intros s; simpl; rewrite E; reflexivity.
Qed.

Lemma apply_transport cs : forall v (u : R -> vec3) t k,
  wfd v -> has k (ddx v) = true ->
  vderive u t (dcol v k) ->
  vderive (fun t => coords (apply cs (of_coords (u t)))) t (dcol (apply cs v) k).
Proof.
  induction cs as [|c cs IH]; intros v u t k Hw Hk Hu.
  - eapply vderive_ext; [|exact Hu]. intros s. simpl. rewrite of_coords_coords. reflexivity.
  - rewrite apply_cons.
    destruct (apply1_keys v c Hw) as [Hw' K].
    assert (Hk' : has k (ddx (apply1 v c)) = true) by (rewrite K, Hk; reflexivity).
    pose proof (step_derive c u t _ Hu) as Hs.
    rewrite <- (apply1_transport v c k Hw) in Hs by (intros; right; exact Hk).
    specialize (IH (apply1 v c) (fun t => step c (u t)) t k Hw' Hk' Hs).
    eapply vderive_ext; [|exact IH]. intros s. cbv beta. rewrite apply_cons.
    apply coords_apply_ext. rewrite of_coords_coords, coords_apply1, of_coords_coords. reflexivity.
Qed.

(** Main lemma: the entry of an angle is the derivative with respect to the
    first occurrence of that angle in the chain. *)
Lemma first_occurrence cs : forall v k a,
  wfd v -> has ("d" ++ k) (ddx v) = false ->
  first_angle k cs = Some a ->
  vderive (fun t => coords (apply (set_first k t cs) v)) a (dcol (apply cs v) ("d" ++ k)).
Proof.
  induction cs as [|c cs IH]; intros v k a Hw Hk Hf; [discriminate|].
  simpl in Hf. rewrite apply_cons.
  destruct (apply1_keys v c Hw) as [Hw' K].
  destruct (angle_of c) as [[k' b]|] eqn:Ea.
  - destruct (String.eqb k k') eqn:E.
    + apply String.eqb_eq in E; subst k'. injection Hf as ->.
      assert (Hk' : has ("d" ++ k) (ddx (apply1 v c)) = true).
      { rewrite K, String.eqb_refl, orb_true_r. reflexivity. }
      pose proof (step_angle_derive c k a (coords v) Ea) as Hs.
      rewrite <- (apply1_direct v c k a Hw Ea Hk) in Hs.
      eapply vderive_ext; [|exact (apply_transport cs (apply1 v c) _ a ("d" ++ k) Hw' Hk' Hs)].
      intros s. cbv beta. cbn [set_first]. rewrite Ea, String.eqb_refl, apply_cons.
      apply coords_apply_ext. rewrite of_coords_coords, coords_apply1; reflexivity.
    + assert (Hk' : has ("d" ++ k) (ddx (apply1 v c)) = false).
      { rewrite K, Hk. cbn [orb]. apply String.eqb_neq in E. apply String.eqb_neq.
        intros E2; apply E; simpl in E2; congruence. }
      eapply vderive_ext; [|exact (IH (apply1 v c) k a Hw' Hk' Hf)].
      intros s. cbn [set_first]. rewrite Ea, E, apply_cons; reflexivity.
  - assert (Hk' : has ("d" ++ k) (ddx (apply1 v c)) = false).
    { rewrite K, Hk. reflexivity. }
    eapply vderive_ext; [|exact (IH (apply1 v c) k a Hw' Hk' Hf)].
    intros s. cbn [set_first]. rewrite Ea, apply_cons; reflexivity.
Qed.

Lemma set_first_nodup k t cs : NoDup (angle_names cs) -> set_first k t cs = set_angle k t cs.
Proof.
  induction cs as [|c cs IH]; intros H; [reflexivity|].
  simpl in *. unfold set_angle in *; simpl. destruct (angle_of c) as [[k' b]|].
  - inversion H; subst. destruct (String.eqb k k') eqn:E.
    + f_equal. apply String.eqb_eq in E; subst k'.
      clear - H2. induction cs as [|c cs IH]; [reflexivity|].
      simpl in *. destruct (angle_of c) as [[k2 b2]|].
      * simpl in H2. rewrite <- IH by tauto. destruct (String.eqb k k2) eqn:E; [|reflexivity].
        apply String.eqb_eq in E. subst; tauto.
      * f_equal; auto.
    + f_equal; auto.
  - f_equal; auto.
Qed.

Lemma has_fresh_angle k x y z c a : angle_of c = Some (k, a) ->
  has ("d" ++ k) (ddx (fresh x y z)) = false.
Proof. destruct c; simpl; intros H; inversion H; subst; reflexivity. Qed.

Lemma first_angle_In k cs a : first_angle k cs = Some a -> exists c, angle_of c = Some (k, a).
Proof.
  induction cs as [|c cs IH]; [discriminate|]. simpl.
  destruct (angle_of c) as [[k' b]|] eqn:E; auto.
  destruct (String.eqb k k') eqn:E2; auto.
  apply String.eqb_eq in E2; subst. intros H; injection H as ->. exists c; exact E.
Qed.

Lemma initial_derive cs x y z :
  vderive (fun t => coords (apply cs (fresh t y z))) x (dcol (apply cs (fresh x y z)) "dx") /\
  vderive (fun t => coords (apply cs (fresh x t z))) y (dcol (apply cs (fresh x y z)) "dy") /\
  vderive (fun t => coords (apply cs (fresh x y t))) z (dcol (apply cs (fresh x y z)) "dz").
Proof.
  assert (W := wfd_fresh x y z).
  split; [|split].
  - apply (apply_transport cs (fresh x y z) (fun t => (t, y, z)) x "dx"); auto.
    split; [|split]; unfold c1, c2, c3; simpl; auto_derive; auto.
  - apply (apply_transport cs (fresh x y z) (fun t => (x, t, z)) y "dy"); auto.
    split; [|split]; unfold c1, c2, c3; simpl; auto_derive; auto.
  - apply (apply_transport cs (fresh x y z) (fun t => (x, y, t)) z "dz"); auto.
    split; [|split]; unfold c1, c2, c3; simpl; auto_derive; auto.
Qed.

(** ** Cross product *)

Definition vdot (u v : triple) : R := let '(a, b, c) := u in let '(x, y, z) := v in a * x + b * y + c * z.

Lemma mul_derive (f g : R -> R) t f' g' :
  is_derive f t f' -> is_derive g t g' -> is_derive (fun t => f t * g t) t (f' * g t + f t * g').
Proof.
  intros Hf Hg. apply is_derive_Reals. apply is_derive_Reals in Hf. apply is_derive_Reals in Hg.
  apply (derivable_pt_lim_mult f g); assumption.
Qed.

Lemma minus_derive (f g : R -> R) t f' g' :
  is_derive f t f' -> is_derive g t g' -> is_derive (fun t => f t - g t) t (f' - g').
Proof.
  intros Hf Hg. apply is_derive_Reals. apply is_derive_Reals in Hf. apply is_derive_Reals in Hg.
  apply (derivable_pt_lim_minus f g); assumption.
Qed.

Lemma cross_jacobian (a b : R -> vec3) t da db :
  vderive a t da -> vderive b t db ->
  let '((dxa, dxb), (dya, dyb), (dza, dzb)) := cross_deriv (of_coords (a t)) (of_coords (b t)) in
  vderive (fun s => coords (cross (of_coords (a s)) (of_coords (b s)))) t
    (dot3 dxa da + dot3 dxb db, dot3 dya da + dot3 dyb db, dot3 dza da + dot3 dzb db).
Proof.
  intros (A1 & A2 & A3) (B1 & B2 & B3).
  destruct da as [[a1 a2] a3], db as [[b1 b2] b3].
  assert (E : forall s, coords (cross (of_coords (a s)) (of_coords (b s))) =
     (c2 (a s) * c3 (b s) - c3 (a s) * c2 (b s), c3 (a s) * c1 (b s) - c1 (a s) * c3 (b s),
      c1 (a s) * c2 (b s) - c2 (a s) * c1 (b s))).
  { intros s; destruct (a s) as [[p q] r], (b s) as [[p' q'] r']; reflexivity. }
  cbv beta iota delta [cross_deriv].
  eapply vderive_ext; [intros s; symmetry; apply E|].
  assert (Ax : forall u, vx (of_coords u) = c1 u) by (intros [[? ?] ?]; reflexivity).
  assert (Ay : forall u, vy (of_coords u) = c2 u) by (intros [[? ?] ?]; reflexivity).
  assert (Az : forall u, vz (of_coords u) = c3 u) by (intros [[? ?] ?]; reflexivity).
  rewrite !Ax, !Ay, !Az.
  split; [|split]; cbn [c1 c2 c3 fst snd] in *;
  (eapply is_derive_val; [apply minus_derive; apply mul_derive; eassumption|]);
  unfold dot3, c1, c2, c3; simpl; ring.
Qed.

(** Dictionary form: key "d" ++ name ++ component. *)
Lemma cross_array_entries a b na nb : na <> nb ->
  let '(dx, dy, dz) := cross_deriv_array a b na nb in
  let row d n := (dget d ("d" ++ n ++ "x"), dget d ("d" ++ n ++ "y"), dget d ("d" ++ n ++ "z")) in
  cross_deriv a b = ((row dx na, row dx nb), (row dy na, row dy nb), (row dz na, row dz nb)).
Proof.
  intros Hn. unfold cross_deriv_array, cross_deriv. cbv zeta.
  assert (Q : forall n n' e e', n <> n' -> String.eqb ("d" ++ n ++ String e "") ("d" ++ n' ++ String e' "") = false).
  { intros n n' e e' H. apply String.eqb_neq. intros E. apply H. simpl in E. injection E as E.
    clear - E. revert n' E. induction n as [|ch n IH]; destruct n' as [|ch' n']; simpl; intros E.
    - reflexivity.
    - exfalso. injection E as _ E. destruct n'; discriminate.
    - exfalso. injection E as _ E. destruct n; discriminate.
    - injection E as -> E. f_equal. auto. }
  assert (P : forall n e e', e <> e' -> String.eqb ("d" ++ n ++ String e "") ("d" ++ n ++ String e' "") = false).
  { intros n e e' H. apply String.eqb_neq. intros E. apply H. simpl in E. injection E as E.
    clear - E. induction n as [|ch n IH]; simpl in E; [congruence|]. injection E as E; auto. }
  repeat rewrite dget_dset.
  rewrite !String.eqb_refl.
  repeat rewrite (Q na nb) by exact Hn. repeat rewrite P by discriminate.
  reflexivity.
Qed.

Lemma cross_algebra (u v w : dvec) (k : R) :
  let X a b := coords (cross a b) in
  X (fresh 1 0 0) (fresh 0 1 0) = (0, 0, 1) /\
  X u v = scale3 (-1) (X v u) /\
  dot3 (X u v) (coords u) = 0 /\ dot3 (X u v) (coords v) = 0 /\
  dot3 (X u v) (X u v) + dot3 (coords u) (coords v) * dot3 (coords u) (coords v)
    = dot3 (coords u) (coords u) * dot3 (coords v) (coords v) /\
  X (dv_add u (Vec w)) v = add3 (X u v) (X w v) /\
  X (dv_mul u (Num k)) v = scale3 k (X u v).
Proof.
  destruct u, v, w; unfold cross, coords, dot3, scale3, add3, dv_add, dv_mul, ox, oy, oz, fresh; simpl.
  repeat split; try (vec_eq; ring); ring.
Qed.

Lemma profile_not_right_handed : exists (u v : dvec),
  coords (airfoilToProfile (cross u v)) <>
  cross3 (coords (airfoilToProfile u)) (coords (airfoilToProfile v)).
Proof.
  exists (fresh 1 0 0), (fresh 0 1 0). unfold coords, cross3; simpl. intros E. injection E as E1 E2 E3. lra.
Qed.

Lemma angle_derive_first cs x y z k a :
  first_angle k cs = Some a ->
  vderive (fun t => coords (apply (set_first k t cs) (fresh x y z))) a
          (dcol (apply cs (fresh x y z)) ("d" ++ k)).
Proof.
  intros H. apply first_occurrence; auto using wfd_fresh.
  destruct (first_angle_In k cs a H) as [c Hc]. apply (has_fresh_angle k x y z c a Hc).
Qed.

Lemma angle_derive_nodup cs x y z k a :
  NoDup (angle_names cs) -> first_angle k cs = Some a ->
  vderive (fun t => coords (apply (set_angle k t cs) (fresh x y z))) a
          (dcol (apply cs (fresh x y z)) ("d" ++ k)).
Proof.
  intros Hn H. eapply vderive_ext; [|apply angle_derive_first; exact H].
  intros s; simpl. rewrite set_first_nodup; auto.
Qed.

Lemma csystem_no_keyerror cs x y z k :
  let v := apply cs (fresh x y z) in
  (In k (dkeys (ddx v)) <-> In k (dkeys (ddy v))) /\
  (In k (dkeys (ddx v)) <-> In k (dkeys (ddz v))) /\
  In "dx"%string (dkeys (ddx v)) /\ In "dy"%string (dkeys (ddx v)) /\ In "dz"%string (dkeys (ddx v)) /\
  (In k (angle_names cs) -> In ("d" ++ k)%string (dkeys (ddx v))).
Proof.
  intros v. pose proof (apply_wfd cs _ (wfd_fresh x y z)) as (A & B & C). fold v in A, B, C.
  unfold has in *.
  repeat split; intros; try (apply inb_In; apply C; reflexivity);
  try (apply inb_In; apply inb_In in H; congruence).
  apply inb_In. pose proof (apply_has cs _ k (wfd_fresh x y z)) as D. fold v in D. unfold has in D at 1.
  rewrite D. apply inb_In in H. rewrite H. apply orb_true_r.
Qed.

Lemma repeated_angle_wrong (psi x y z : R) : x <> 0 \/ y <> 0 ->
  (forall t, coords (apply [WindToYaw t; YawToWind t] (fresh x y z)) = (x, y, z)) /\
  dcol (apply [WindToYaw psi; YawToWind psi] (fresh x y z)) "dyaw" <> (0, 0, 0).
Proof.
  intros Hxy. split.
  - intros t. exact (roundtrip1 (WindToYaw t) (fresh x y z)).
  - intros E.
    assert (W := wfd_fresh x y z).
    set (v := fresh x y z) in *.
    change (dcol (apply1 (apply1 v (WindToYaw psi)) (YawToWind psi)) "dyaw" = (0,0,0)) in E.
    destruct (apply1_keys v (WindToYaw psi) W) as [W1 K1].
    rewrite apply1_transport in E; auto.
    change "dyaw"%string with ("d" ++ "yaw")%string in E.
    rewrite (apply1_direct v (WindToYaw psi) "yaw" psi W eq_refl eq_refl) in E.
    unfold dstep, step, coords, of_coords in E. unfold v in E. cs_unfold. simpl in E.
    rewrite radians_neg, radians_pos, sin_neg, cos_neg in E.
    injection E as E1 E2.
    pose proof (sc1 (radians psi)) as H. set (s := sin (radians psi)) in *. set (c := cos (radians psi)) in *.
    assert (Hr : radians 1 <> 0). { unfold radians. pose proof PI_RGT_0. lra. }
    assert (Y : y * radians 1 = 0).
    { transitivity (y * radians 1 * (s * s + c * c)); [rewrite H; ring|]. rewrite <- E1. ring. }
    assert (X : - x * radians 1 = 0).
    { transitivity (- x * radians 1 * (s * s + c * c)); [rewrite H; ring|]. rewrite <- E2. ring. }
    apply Rmult_integral in Y. apply Rmult_integral in X. destruct Hxy; lra.
Qed.
