(** Derivatives of the whole blade: the packing of distributedAeroLoads. *)
From Coquelicot Require Import Coquelicot.
From Coq Require Import Reals Bool Arith List Lia Lra.
From Verif Require Import Prelim Num Bem BemGeomProofs IndSpec DiffSpec BemDiff DeriveLib IndDvProofs CurvDvProofs LinProofs Blade BladeDiff
  BladeDiffSpec StationDvProofs.
Import ListNotations.
Open Scope R_scope.

Lemma eye_sym i j : eye i j = eye j i.
Proof. unfold eye. rewrite Nat.eqb_sym. reflexivity. Qed.

Lemma inner_ext n f f' g g' : (forall k, (k < n)%nat -> f k = f' k) -> (forall k, (k < n)%nat -> g k = g' k) -> inner n f g = inner n f' g'.
Proof.
  induction n as [|n IH]; intros Hf Hg; cbn [inner]; [reflexivity|].
  rewrite IH, Hf, Hg by (intros; auto; lia). reflexivity.
Qed.
Lemma inner_split a b f g : inner (a + b) f g = inner a f g + inner b (fun k => f (a + k)%nat) (fun k => g (a + k)%nat).
Proof.
  induction b as [|b IH]; [rewrite Nat.add_0_r; cbn [inner]; ring|].
  rewrite Nat.add_succ_r. cbn [inner]. rewrite IH. ring.
Qed.
Lemma inner_single n f g i : (i < n)%nat -> (forall k, (k < n)%nat -> k <> i -> f k * g k = 0) -> inner n f g = f i * g i.
Proof.
  induction n as [|n IH]; intros Hi H; [lia|]. cbn [inner].
  destruct (Nat.eq_dec i n) as [->|Hne].
  - replace (inner n f g) with 0; [ring|]. symmetry.
    assert (K : forall m, (m <= n)%nat -> inner m f g = 0).
    { induction m as [|m IHm]; intros Hm; cbn [inner]; [reflexivity|]. rewrite IHm, H by lia. ring. }
    apply K. lia.
  - rewrite IH; [rewrite (H n) by lia; ring|lia|intros; apply H; [lia|assumption]].
Qed.

Lemma d_radians (f : R -> R) t f' : is_derive f t f' -> is_derive (fun s => radians (f s)) t (radians f').
Proof. intros H. unfold radians. der. ring. Qed.

(** Velocity of y = [r, precurve, presweep, precone, tilt, hubHt, yaw, shear, azimuth, Uinf, Omega]. *)
Definition yvel (n : nat) (v : design) (k : nat) : R :=
  if Nat.ltb k n then x_r v k
  else if Nat.ltb k (2 * n) then x_precurve v (k - n)%nat
  else if Nat.ltb k (3 * n) then x_presweep v (k - 2 * n)%nat
  else nth (k - 3 * n) [radians (x_precone v); radians (x_tilt v); x_hubHt v; radians (x_yaw v); x_shear v;
                        radians (x_azimuth v); x_Uinf v; x_Omega v] 0.

Lemma yvel_r n v k : (k < n)%nat -> yvel n v k = x_r v k.
Proof. intros H. unfold yvel. destruct (Nat.ltb_spec k n); [reflexivity|lia]. Qed.
Lemma yvel_pc n v k : (k < n)%nat -> yvel n v (n + k) = x_precurve v k.
Proof.
  intros H. unfold yvel. destruct (Nat.ltb_spec (n + k) n); [lia|]. destruct (Nat.ltb_spec (n + k) (2 * n)); [|lia].
  f_equal. lia.
Qed.
Lemma yvel_ps n v k : (k < n)%nat -> yvel n v (2 * n + k) = x_presweep v k.
Proof.
  intros H. unfold yvel. destruct (Nat.ltb_spec (2 * n + k) n); [lia|]. destruct (Nat.ltb_spec (2 * n + k) (2 * n)); [lia|].
  destruct (Nat.ltb_spec (2 * n + k) (3 * n)); [|lia]. f_equal. lia.
Qed.
Lemma yvel_s n v m : yvel n v (3 * n + m) = nth m [radians (x_precone v); radians (x_tilt v); x_hubHt v; radians (x_yaw v); x_shear v;
                        radians (x_azimuth v); x_Uinf v; x_Omega v] 0.
Proof.
  unfold yvel. destruct (Nat.ltb_spec (3 * n + m) n); [lia|]. destruct (Nat.ltb_spec (3 * n + m) (2 * n)); [lia|].
  destruct (Nat.ltb_spec (3 * n + m) (3 * n)); [lia|]. f_equal. lia.
Qed.

Lemma inner_y n f v : inner (3 * n + 8) f (yvel n v) =
  inner n f (x_r v) + inner n (fun j => f (n + j)%nat) (x_precurve v) + inner n (fun j => f (2 * n + j)%nat) (x_presweep v)
  + f (3 * n)%nat * radians (x_precone v) + f (3 * n + 1)%nat * radians (x_tilt v) + f (3 * n + 2)%nat * x_hubHt v
  + f (3 * n + 3)%nat * radians (x_yaw v) + f (3 * n + 4)%nat * x_shear v + f (3 * n + 5)%nat * radians (x_azimuth v)
  + f (3 * n + 6)%nat * x_Uinf v + f (3 * n + 7)%nat * x_Omega v.
Proof.
  rewrite inner_split. replace (3 * n)%nat with (2 * n + n)%nat at 1 by lia. rewrite inner_split.
  replace (2 * n)%nat with (n + n)%nat at 1 by lia. rewrite inner_split.
  rewrite (inner_ext n f f (yvel n v) (x_r v)) by (intros; auto; apply yvel_r; assumption).
  rewrite (inner_ext n (fun k => f (n + k)%nat) (fun k => f (n + k)%nat) (fun k => yvel n v (n + k)) (x_precurve v))
    by (intros; auto; apply yvel_pc; assumption).
  rewrite (inner_ext n (fun k => f (2 * n + k)%nat) (fun k => f (2 * n + k)%nat) (fun k => yvel n v (2 * n + k)) (x_presweep v))
    by (intros; auto; apply yvel_ps; assumption).
  cbn [inner]. rewrite !yvel_s. cbn [nth]. rewrite Nat.add_0_r. ring.
Qed.

(** ** Wind *)
Section Wind.
Variables (fx : fixed) (D : R -> design) (t : R) (v : design).
Let n := f_n fx.
Hypothesis Hn : (2 <= n)%nat.
Hypothesis HD : design_derive n D t v.
Hypothesis Hw : wind_ok fx D t.
Let w := wind_seeded fx (D t).

Lemma wind_rate i : (i < n)%nat ->
  is_derive (fun s => fst (wind_d fx (D s)) i) t (inner (3 * n + 8) (fun k => wv_vxd w k i) (yvel n v)) /\
  is_derive (fun s => snd (wind_d fx (D s)) i) t (inner (3 * n + 8) (fun k => wv_vyd w k i) (yvel n v)).
Proof.
  intros Hi.
  destruct (wind_comb n (x_r (D t)) (x_precurve (D t)) (x_presweep (D t)) (radians (x_precone (D t))) (radians (x_yaw (D t)))
    (radians (x_tilt (D t))) (radians (x_azimuth (D t))) (x_Uinf (D t)) (x_Omega (D t)) (x_hubHt (D t)) (x_shear (D t))
    (fun j nd => eye nd j) (3 * n + 8) (yvel n v) 0 i) as (E1 & E2).
  unfold w, wind_seeded. fold n. rewrite E1, E2. clear E1 E2.
  set (T := fun (j : nat) (_ : nat) => inner (3 * n + 8) (fun nd => eye nd j) (yvel n v)).
  assert (HT : forall j m, (j < 3 * n + 8)%nat -> T j m = yvel n v j).
  { intros j m Hj. unfold T. rewrite (inner_ext _ _ (eye j) _ (yvel n v)) by (intros; auto; apply eye_sym).
    rewrite inner_eye. destruct (Nat.ltb_spec j (3 * n + 8)); [reflexivity|lia]. }
  destruct HD as (H1 & H2 & H3 & H4 & H5 & H6 & H7 & H8 & H9 & H10 & H11 & H12 & H13 & H14 & H15 & H16 & H17 & H18).
  destruct Hw as (W1 & W2 & W3).
  destruct (wind_dv_exact n (fun j s => x_r (D s) j) (fun j s => x_precurve (D s) j) (fun j s => x_presweep (D s) j)
    (fun s => radians (x_precone (D s))) (fun s => radians (x_yaw (D s))) (fun s => radians (x_tilt (D s)))
    (fun s => radians (x_azimuth (D s))) (fun s => x_Uinf (D s)) (fun s => x_Omega (D s)) (fun s => x_hubHt (D s))
    (fun s => x_shear (D s)) t
    (fun nd j => T j nd) (fun nd j => T (n + j)%nat nd) (fun nd j => T (2 * n + j)%nat nd) (T (3 * n)%nat) (T (3 * n + 3)%nat)
    (T (3 * n + 1)%nat) (T (3 * n + 5)%nat) (T (3 * n + 6)%nat) (T (3 * n + 7)%nat) (T (3 * n + 2)%nat) (T (3 * n + 4)%nat) 0)
    as (_ & G1 & G2); try assumption.
  - intros j Hj. rewrite HT by lia. rewrite yvel_r by assumption. apply H1. exact Hj.
  - intros j Hj. rewrite HT by lia. rewrite yvel_pc by assumption. apply H4. exact Hj.
  - intros j Hj. rewrite HT by lia. rewrite yvel_ps by assumption. apply H5. exact Hj.
  - rewrite HT by lia. replace (3 * n)%nat with (3 * n + 0)%nat by lia. rewrite yvel_s. apply d_radians. exact H6.
  - rewrite HT by lia. rewrite yvel_s. apply d_radians. exact H13.
  - rewrite HT by lia. rewrite yvel_s. apply d_radians. exact H7.
  - rewrite HT by lia. rewrite yvel_s. apply d_radians. exact H15.
  - rewrite HT by lia. rewrite yvel_s. exact H16.
  - rewrite HT by lia. rewrite yvel_s. exact H17.
  - rewrite HT by lia. rewrite yvel_s. exact H8.
  - rewrite HT by lia. rewrite yvel_s. exact H14.
  - split; [exact (G1 i Hi)|exact (G2 i Hi)].
Qed.
End Wind.

(** ** Which stations matter *)
Definition zero_d : design :=
  mkDesign (fun _ => 0) (fun _ => 0) (fun _ => 0) (fun _ => 0) (fun _ => 0) 0 0 0 0 0 0 0 0 0 0 0 0 0.
Definition with_rps (d : design) (r ps : arr) : design :=
  mkDesign r (x_chord d) (x_theta d) (x_precurve d) ps (x_precone d) (x_tilt d) (x_hubHt d)
    (x_Rhub d) (x_Rtip d) (x_precurveTip d) (x_presweepTip d) (x_yaw d) (x_shear d) (x_azimuth d) (x_Uinf d) (x_Omega d) (x_pitch d).

Lemma shift_derive n d a b : design_derive n (fun s => with_rps d (fun m => x_r d m + s * a m) (fun m => x_presweep d m + s * b m)) 0
  (with_rps zero_d a b).
Proof.
  unfold design_derive, arrays_derive. cbn [with_rps x_r x_chord x_theta x_precurve x_presweep x_precone x_tilt x_hubHt x_Rhub x_Rtip
    x_precurveTip x_presweepTip x_yaw x_shear x_azimuth x_Uinf x_Omega x_pitch zero_d].
  assert (L : forall x y : R, is_derive (fun s => x + s * y) 0 y) by (intros; der; ring).
  repeat match goal with |- _ /\ _ => split end; intros; try apply d_const; apply L.
Qed.

Lemma wind_ok_shift fx d a b : wind_ok fx (fun _ => d) 0 ->
  wind_ok fx (fun s => with_rps d (fun m => x_r d m + s * a m) (fun m => x_presweep d m + s * b m)) 0.
Proof.
  intros H. unfold wind_ok in *. cbv zeta in *. cbn [with_rps x_r x_chord x_theta x_precurve x_presweep x_precone x_tilt x_hubHt x_shear x_azimuth].
  replace (fun m => x_r d m + 0 * a m) with (x_r d) by (apply FunctionalExtensionality.functional_extensionality; intros; ring).
  replace (fun m => x_presweep d m + 0 * b m) with (x_presweep d) by (apply FunctionalExtensionality.functional_extensionality; intros; ring).
  destruct H as (H1 & H2 & H3). split; [exact H1|]. split; [exact H2|]. intros i Hi. destruct (H3 i Hi) as [P|P]; [left|right]; [exact P|].
  intros s. exact (P 0).
Qed.

Lemma wind_ok_const fx D t : wind_ok fx D t -> wind_ok fx (fun _ => D t) 0.
Proof.
  unfold wind_ok. cbv zeta. intros (H1 & H2 & H3). split; [exact H1|]. split; [exact H2|].
  intros i Hi. destruct (H3 i Hi) as [P|P]; [left|right]; [exact P|]. intros s. apply P.
Qed.

(** The wind at station i depends on presweep through presweep i only. *)
Lemma wind_ps_local fx d ps i : ps i = x_presweep d i ->
  fst (wind_d fx (with_rps d (x_r d) ps)) i = fst (wind_d fx d) i /\ snd (wind_d fx (with_rps d (x_r d) ps)) i = snd (wind_d fx d) i.
Proof. intros E. unfold wind_d, windComponents. cbn. rewrite E. split; reflexivity. Qed.

(** and on r through r i only if the blade is straight *)
Lemma wind_r_local fx d r i : (2 <= f_n fx)%nat -> (i < f_n fx)%nat -> r i = x_r d i ->
  (exists c, forall j, (j < f_n fx)%nat -> x_precurve d j = c) -> - PI < radians (x_precone d) < PI ->
  (forall j, (S j < f_n fx)%nat -> x_r d j < x_r d (S j)) -> (forall j, (S j < f_n fx)%nat -> r j < r (S j)) ->
  fst (wind_d fx (with_rps d r (x_presweep d))) i = fst (wind_d fx d) i /\
  snd (wind_d fx (with_rps d r (x_presweep d))) i = snd (wind_d fx d) i.
Proof.
  intros Hn Hi E (c & Hc) Hp H1 H2.
  assert (Hc' : forall j, (S j < f_n fx)%nat -> x_precurve d j = x_precurve d (S j)) by (intros; rewrite !Hc by lia; reflexivity).
  unfold wind_d, windComponents, defineCurvature.
  cbn [with_rps x_r x_chord x_theta x_precurve x_presweep x_precone x_tilt x_hubHt x_yaw x_Uinf x_Omega x_shear x_azimuth fst snd].
  rewrite !cone_straight by (auto; lra). unfold curv_x, curv_z. rewrite E. split; reflexivity.
Qed.

Section Local.
Variables (fx : fixed) (d : design).
Let n := f_n fx.
Hypothesis Hn : (2 <= n)%nat.
Hypothesis Hw : wind_ok fx (fun _ => d) 0.
Let w := wind_seeded fx d.

Lemma yvel_shift a b k : (k < 3 * n + 8)%nat -> yvel n (with_rps zero_d a b) k =
  if Nat.ltb k n then a k else if andb (Nat.leb (2 * n) k) (Nat.ltb k (3 * n)) then b (k - 2 * n)%nat else 0.
Proof.
  intros Hk. unfold yvel. cbn [with_rps x_r x_precurve x_presweep zero_d x_precone x_tilt x_hubHt x_yaw x_shear x_azimuth x_Uinf x_Omega].
  destruct (Nat.ltb_spec k n); [reflexivity|]. destruct (Nat.ltb_spec k (2 * n)).
  - destruct (Nat.leb_spec (2 * n) k); [lia|]. reflexivity.
  - destruct (Nat.leb_spec (2 * n) k); [|lia]. destruct (Nat.ltb_spec k (3 * n)); [reflexivity|]. cbn [andb].
    unfold radians. generalize (k - 3 * n)%nat. intros m. do 8 (destruct m as [|m]; [cbn [nth]; ring|]). destruct m; reflexivity.
Qed.

Lemma shift_rate a b i : (i < n)%nat ->
  let D := fun s => with_rps d (fun m => x_r d m + s * a m) (fun m => x_presweep d m + s * b m) in
  is_derive (fun s => fst (wind_d fx (D s)) i) 0 (inner (3 * n + 8) (fun k => wv_vxd w k i) (yvel n (with_rps zero_d a b))) /\
  is_derive (fun s => snd (wind_d fx (D s)) i) 0 (inner (3 * n + 8) (fun k => wv_vyd w k i) (yvel n (with_rps zero_d a b))).
Proof.
  intros Hi D.
  assert (E0 : D 0 = d).
  { unfold D. replace (fun m => x_r d m + 0 * a m) with (x_r d) by (apply FunctionalExtensionality.functional_extensionality; intros; ring).
    replace (fun m => x_presweep d m + 0 * b m) with (x_presweep d) by (apply FunctionalExtensionality.functional_extensionality; intros; ring).
    destruct d; reflexivity. }
  pose proof (wind_rate fx D 0 (with_rps zero_d a b) Hn (shift_derive n d a b) (wind_ok_shift fx d a b Hw) i Hi) as H.
  rewrite E0 in H. exact H.
Qed.

Lemma ps_off i j : (i < n)%nat -> (j < n)%nat -> i <> j -> wv_vxd w (2 * n + j) i = 0 /\ wv_vyd w (2 * n + j) i = 0.
Proof.
  intros Hi Hj Hne.
  destruct (shift_rate (fun _ => 0) (eye j) i Hi) as (G1 & G2).
  assert (YV : forall f : nat -> R, inner (3 * n + 8) f (yvel n (with_rps zero_d (fun _ => 0) (eye j))) = f (2 * n + j)%nat).
  { intros f. rewrite (inner_single _ _ _ (2 * n + j)).
    - rewrite yvel_ps by assumption. cbn [with_rps x_presweep]. rewrite eye_same. ring.
    - lia.
    - intros k Hk Hkj. rewrite yvel_shift by assumption. destruct (Nat.ltb k n); [ring|].
      destruct (andb _ _) eqn:B; [|ring]. apply andb_prop in B. destruct B as [B1 B2]. apply Nat.leb_le in B1. rewrite eye_diff by lia. ring. }
  cbv zeta in G1, G2. rewrite YV in G1, G2.
  set (D := fun s : R => with_rps d (fun m => x_r d m + s * 0) (fun m => x_presweep d m + s * eye j m)) in *.
  assert (C : forall s, fst (wind_d fx (D s)) i = fst (wind_d fx d) i /\ snd (wind_d fx (D s)) i = snd (wind_d fx d) i).
  { intros s. unfold D. replace (fun m => x_r d m + s * 0) with (x_r d) by (apply FunctionalExtensionality.functional_extensionality; intros; ring).
    apply wind_ps_local. rewrite eye_diff by auto. ring. }
  split.
  - rewrite <- (is_derive_unique _ _ _ G1). rewrite (Derive_ext _ (fun _ => fst (wind_d fx d) i)) by (intros; apply C). apply Derive_const.
  - rewrite <- (is_derive_unique _ _ _ G2). rewrite (Derive_ext _ (fun _ => snd (wind_d fx d) i)) by (intros; apply C). apply Derive_const.
Qed.

Lemma r_off i j : (i < n)%nat -> (j < n)%nat -> i <> j ->
  (exists c, forall j, (j < n)%nat -> x_precurve d j = c) -> - PI < radians (x_precone d) < PI ->
  (forall j, (S j < n)%nat -> x_r d j < x_r d (S j)) -> wv_vxd w j i = 0 /\ wv_vyd w j i = 0.
Proof.
  intros Hi Hj Hne Hc Hp Hinc.
  destruct (shift_rate (eye j) (fun _ => 0) i Hi) as (G1 & G2).
  assert (YV : forall f : nat -> R, inner (3 * n + 8) f (yvel n (with_rps zero_d (eye j) (fun _ => 0))) = f j).
  { intros f. rewrite (inner_single _ _ _ j).
    - rewrite yvel_r by assumption. cbn [with_rps x_r]. rewrite eye_same. ring.
    - lia.
    - intros k Hk Hkj. rewrite yvel_shift by assumption. destruct (Nat.ltb k n); [rewrite eye_diff by auto; ring|].
      destruct (andb _ _); ring. }
  cbv zeta in G1, G2. rewrite YV in G1, G2.
  set (D := fun s : R => with_rps d (fun m => x_r d m + s * eye j m) (fun m => x_presweep d m + s * 0)) in *.
  (* near 0 the radii still increase *)
  assert (Near : forall m, (m <= n)%nat -> locally 0 (fun s => forall k, (S k < m)%nat -> x_r d k + s * eye j k < x_r d (S k) + s * eye j (S k))).
  { induction m as [|m IH]; intros Hm.
    - apply filter_forall. intros s k Hk. lia.
    - destruct (le_lt_dec m 0) as [L|L].
      + apply filter_forall. intros s k Hk. lia.
      + assert (F : forall q, is_derive (fun s => x_r d q + s * eye j q) 0 (eye j q)) by (intros; der; ring).
        assert (M : locally 0 (fun s => x_r d (m - 1)%nat + s * eye j (m - 1)%nat < x_r d (S (m - 1)) + s * eye j (S (m - 1)))).
        { apply (near_lt (fun s => x_r d (m - 1)%nat + s * eye j (m - 1)%nat) (fun s => x_r d (S (m - 1)) + s * eye j (S (m - 1))) 0 _ _ (F _) (F _)).
          rewrite !Rmult_0_l, !Rplus_0_r. apply Hinc. lia. }
        assert (Hm' : (m <= n)%nat) by lia. specialize (IH Hm'). generalize (filter_and _ _ IH M). apply filter_imp. intros s [A B] k Hk.
        destruct (Nat.eq_dec k (m - 1)) as [->|Hk']; [exact B|apply A; lia]. }
  specialize (Near n (Nat.le_refl n)).
  assert (C : locally 0 (fun s => fst (wind_d fx (D s)) i = fst (wind_d fx d) i /\ snd (wind_d fx (D s)) i = snd (wind_d fx d) i)).
  { generalize Near. apply filter_imp. intros s Hs. unfold D.
    replace (fun m => x_presweep d m + s * 0) with (x_presweep d) by (apply FunctionalExtensionality.functional_extensionality; intros; ring).
    apply wind_r_local; auto. rewrite eye_diff by auto. ring. }
  split.
  - rewrite <- (is_derive_unique _ _ _ G1). rewrite (Derive_ext_loc _ (fun _ => fst (wind_d fx d) i)); [apply Derive_const|].
    generalize C. apply filter_imp. tauto.
  - rewrite <- (is_derive_unique _ _ _ G2). rewrite (Derive_ext_loc _ (fun _ => snd (wind_d fx d) i)); [apply Derive_const|].
    generalize C. apply filter_imp. tauto.
Qed.
End Local.

(** ** One station of the blade *)
Lemma nan_guard_R rot (l : sload R) : nan_guard rot l = Ok l.
Proof.
  unfold nan_guard, isnan. cbn [neq R_arith]. replace (reqb (o_Np l) (o_Np l)) with true by (symmetry; apply reqb_true; reflexivity).
  reflexivity.
Qed.

Lemma result_rot npi bq fx D i phi : f_iterRe fx = 1%nat -> x_Omega D <> 0 ->
  solve npi bq (errf (rotor_d fx D) (sect_d fx D i) 0) = Ok phi ->
  station_result npi bq fx D i = loads (rotor_d fx D) phi true (sect_d fx D i).
Proof.
  intros Hi HO Hs. unfold station_result, solve_station, rotating_d.
  replace (rt_iterRe (rotor_d fx D)) with 1%nat by (symmetry; exact Hi).
  replace (reqb (x_Omega D) 0) with false by (symmetry; apply reqb_false; exact HO). cbn [negb].
  rewrite Hs. cbn [bind]. destruct (loads _ _ _ _) as [l|e]; [|reflexivity]. cbn [bind]. apply nan_guard_R.
Qed.

Lemma result_park npi bq fx D i : x_Omega D = 0 ->
  station_result npi bq fx D i = loads (rotor_d fx D) (npi / 2) false (sect_d fx D i).
Proof.
  intros HO. unfold station_result, solve_station, rotating_d. rewrite HO.
  replace (reqb 0 0) with true by (symmetry; apply reqb_true; reflexivity). cbn [negb bind ofR R_arith].
  destruct (loads _ _ _ _) as [l|e]; [|reflexivity]. cbn [bind]. apply nan_guard_R.
Qed.

(** Velocity of the eight variables of a station. *)
Definition svel (v : design) (Vx' Vy' : R) (i : nat) (k : nat) : R :=
  nth k [x_chord v i; radians (x_theta v i); Vx'; Vy'; x_r v i; x_Rhub v; x_Rtip v; radians (x_pitch v)] 0.

Lemma loads_dv_l rt phi rot sc afd l dN dT dR : loads_dv rt phi rot sc afd = Ok (l, dN, dT, dR) -> loads rt phi rot sc = Ok l.
Proof.
  unfold loads_dv, loads_dv_with, load_slope. destruct (andb _ _) eqn:B.
  - destruct (loads rt phi rot sc) as [l'|e]; [|discriminate]. cbn [bind].
    destruct (if rot then _ else _) as [[? ?] ?]. destruct (afd _ _) as [[[? ?] ?] ?].
    match goal with |- (if ?b then _ else _) = _ -> _ => destruct b end; [discriminate|].
    intros H. destruct (ok4_inj _ _ _ _ _ _ _ _ H) as (-> & _). reflexivity.
  - intros H. destruct (ok4_inj _ _ _ _ _ _ _ _ H) as (<- & _). unfold loads. cbn [neq ofR R_arith]. rewrite B. reflexivity.
Qed.

Section OneStation.
Variables (npi : R) (bq : rootfinder R) (fx : fixed) (D : R -> design) (t : R) (v : design) (i : nat) (Vx' Vy' : R).
Let n := f_n fx.
Hypothesis Hi : (i < n)%nat.
Hypothesis HD : design_derive n D t v.
Hypothesis HVx : is_derive (fun s => fst (wind_d fx (D s)) i) t Vx'.
Hypothesis HVy : is_derive (fun s => snd (wind_d fx (D s)) i) t Vy'.
Variables (l : sload R) (dN dT dR : dirs).
Hypothesis Hst : station_dv npi bq fx (D t) i = Ok (l, dN, dT, dR).

Lemma svel_derive : curves_derive 8 (fun k s => nth k [x_chord (D s) i; radians (x_theta (D s) i); fst (wind_d fx (D s)) i;
    snd (wind_d fx (D s)) i; x_r (D s) i; x_Rhub (D s); x_Rtip (D s); radians (x_pitch (D s))] 0) t (svel v Vx' Vy' i).
Proof.
  destruct HD as (H1 & H2 & H3 & H4 & H5 & H6 & H7 & H8 & H9 & H10 & H11 & H12 & H13 & H14 & H15 & H16 & H17 & H18).
  intros k Hk. unfold svel. destruct k as [|[|[|[|[|[|[|[|k]]]]]]]]; cbn [nth]; try lia; try assumption.
  - apply H2. exact Hi.
  - apply d_radians. apply (H3 i Hi).
  - apply (H1 i Hi).
  - apply d_radians. exact H18.
Qed.

Lemma Derive_err rt af afd (x : nat -> R) : regular_station rt af afd x ->
  Derive (errf (rotor_at rt x) (sect_at af x) 0) (x 0%nat) =
  fst (fst (residualDerivatives (rotor_at rt x) (x 0%nat) (sect_at af x) afd)) 0%nat.
Proof.
  intros Hr. pose proof (res_gradient rt af afd x Hr) as G.
  specialize (G (fun k s => match k with O => s | S j => x (S j) end) (x 0%nat) (eye 0)).
  assert (A : forall k, (k < 9)%nat -> match k with O => x 0%nat | S j => x (S j) end = x k) by (intros [|k] _; reflexivity).
  assert (B : curves_derive 9 (fun k s => match k with O => s | S j => x (S j) end) (x 0%nat) (eye 0)).
  { intros [|k] _; [apply (is_derive_id (x 0%nat))|apply d_const]. }
  specialize (G A B). rewrite (inner_single _ _ _ 0) in G.
  - rewrite eye_same, Rmult_1_r in G. rewrite <- (is_derive_unique _ _ _ G). apply Derive_ext. intros s. reflexivity.
  - lia.
  - intros k _ Hk. rewrite eye_diff by auto. ring.
Qed.

Lemma station_rate : station_ok npi bq fx D t i ->
  station_result npi bq fx (D t) i = Ok l /\
  is_derive (fun s => blade_Np npi bq fx (D s) i) t (inner 8 (total dN dR) (svel v Vx' Vy' i)) /\
  (o_ct l <> 0 -> is_derive (fun s => blade_Tp npi bq fx (D s) i) t (inner 8 (total dT dR) (svel v Vx' Vy' i))).
Proof.
  set (rt0 := rotor_d fx (D t)). set (af := f_af fx i). set (afd := f_afd fx i).
  assert (RA : forall s phi, rotor_at rt0 (xvec fx (D s) i phi) = rotor_d fx (D s)) by reflexivity.
  assert (SA : forall s phi, sect_at af (xvec fx (D s) i phi) = sect_d fx (D s) i) by reflexivity.
  intros [H|H].
  - destruct H as (HO & Hit & Hf & phi & [phi' Hphi] & Hloc & Hsimple & Hreg & Hsm & Hwb).
    pose proof (locally_singleton _ _ Hloc) as [Hs0 He0].
    pose proof Hst as H. unfold station_dv in H. cbv zeta in H. replace (rt_iterRe (rotor_d fx (D t))) with 1%nat in H by (symmetry; exact Hit).
    replace (reqb (x_Omega (D t)) 0) with false in H by (symmetry; apply reqb_false; exact HO). cbn [negb] in H.
    rewrite Hs0 in H. cbn [bind] in H. fold afd in H.
    pose proof (loads_dv_l _ _ _ _ _ _ _ _ _ H) as Hll.
    assert (RES : station_result npi bq fx (D t) i = Ok l) by (rewrite (result_rot _ _ _ _ _ _ Hit HO Hs0); exact Hll).
    split; [exact RES|].
    set (x := xvec fx (D t) i (phi t)) in *.
    destruct (loads_gradient_rot rt0 af afd x l dN dT dR Hit Hf Hreg Hsm H (Hwb l RES)) as (GN & GT & GR).
    assert (D0 : dR 0%nat <> 0).
    { intros E. apply Hsimple. rewrite <- E. change (errf (rotor_d fx (D t)) (sect_d fx (D t) i) 0) with (errf (rotor_at rt0 x) (sect_at af x) 0).
      change (phi t) with (x 0%nat). rewrite (Derive_err rt0 af afd x Hreg).
      pose proof (res_gradient rt0 af afd x Hreg) as GR'.
      (* both are the derivative along the axis of phi *)
      set (X := fun k (s : R) => match k with O => s | S j => x (S j) end).
      assert (A : forall k, (k < 9)%nat -> X k (x 0%nat) = x k) by (intros [|k] _; reflexivity).
      assert (B : curves_derive 9 X (x 0%nat) (eye 0)).
      { intros [|k] _; [apply (is_derive_id (x 0%nat))|apply d_const]. }
      pose proof (GR X (x 0%nat) (eye 0) A B) as E1. pose proof (GR' X (x 0%nat) (eye 0) A B) as E2.
      pose proof (is_derive_unique _ _ _ E1) as U1. pose proof (is_derive_unique _ _ _ E2) as U2. rewrite U1 in U2.
      rewrite !(inner_single 9 _ (eye 0) 0) in U2 by (try lia; intros k _ Hk; rewrite (eye_diff 0 k) by auto; ring).
      rewrite eye_same in U2. lra. }
    set (X := fun k s => xvec fx (D s) i (phi s) k).
    assert (HX : curves_derive 9 X t (with_phi phi' (svel v Vx' Vy' i))).
    { intros [|k] Hk; [exact Hphi|]. unfold X, xvec. cbn [with_phi]. apply svel_derive. lia. }
    assert (EX : forall k, (k < 9)%nat -> X k t = x k) by reflexivity.
    assert (LZ : locally t (fun s => station_res rt0 af (at_time X s) = 0)).
    { generalize Hloc. apply filter_imp. intros s [_ E]. exact E. }
    assert (LO : locally t (fun s => x_Omega (D s) <> 0)).
    { apply (near_ne (fun s => x_Omega (D s)) t (x_Omega v)); [apply HD|exact HO]. }
    assert (LR : locally t (fun s => station_result npi bq fx (D s) i = loads (rotor_at rt0 (at_time X s)) (at_time X s 0%nat) true (sect_at af (at_time X s)))).
    { generalize (filter_and _ _ Hloc LO). apply filter_imp. intros s [[E _] O]. rewrite (result_rot _ _ _ _ _ _ Hit O E). reflexivity. }
    split.
    + apply (is_derive_ext_loc (fun s => station_Np rt0 true af (at_time X s))).
      { generalize LR. apply filter_imp. intros s E. unfold blade_Np. rewrite E. reflexivity. }
      exact (total_exact _ _ x dN dR X t _ GN GR D0 EX HX LZ).
    + intros C. apply (is_derive_ext_loc (fun s => station_Tp rt0 true af (at_time X s))).
      { generalize LR. apply filter_imp. intros s E. unfold blade_Tp. rewrite E. reflexivity. }
      exact (total_exact _ _ x dT dR X t _ (GT C) GR D0 EX HX LZ).
  - destruct H as (HO & Hmu & H3 & H4 & Hsm).
    pose proof Hst as H. unfold station_dv in H. rewrite (HO t) in H.
    replace (reqb 0 0) with true in H by (symmetry; apply reqb_true; reflexivity). cbn [negb bind] in H. fold afd in H.
    pose proof (loads_dv_l _ _ _ _ _ _ _ _ _ H) as Hll.
    split; [rewrite (result_park _ _ _ _ _ (HO t)); exact Hll|].
    set (y := fun k => nth k [x_chord (D t) i; radians (x_theta (D t) i); fst (wind_d fx (D t)) i; snd (wind_d fx (D t)) i; x_r (D t) i;
      x_Rhub (D t); x_Rtip (D t); radians (x_pitch (D t))] 0).
    destruct (loads_gradient_park rt0 af afd (npi / 2) y l dN dT dR Hmu H3 H4 Hsm H) as (GN & GT).
    set (Y := fun k s => nth k [x_chord (D s) i; radians (x_theta (D s) i); fst (wind_d fx (D s)) i;
      snd (wind_d fx (D s)) i; x_r (D s) i; x_Rhub (D s); x_Rtip (D s); radians (x_pitch (D s))] 0).
    assert (EY : forall k, (k < 8)%nat -> Y k t = y k) by reflexivity.
    split.
    + apply (is_derive_ext (fun s => station_Np rt0 false af (with_phi (npi / 2) (at_time Y s)))).
      { intros s. unfold blade_Np. rewrite (result_park _ _ _ _ _ (HO s)). reflexivity. }
      exact (GN Y t _ EY svel_derive).
    + intros C. apply (is_derive_ext (fun s => station_Tp rt0 false af (with_phi (npi / 2) (at_time Y s)))).
      { intros s. unfold blade_Tp. rewrite (result_park _ _ _ _ _ (HO s)). reflexivity. }
      exact (GT C Y t _ EY svel_derive).
Qed.
End OneStation.

(** ** Packing *)
Lemma mapM_nth {X Y} (f : X -> res Y) (l : list X) (out : list Y) (dx : X) (dy : Y) :
  mapM f l = Ok out -> forall i, (i < length l)%nat -> f (nth i l dx) = Ok (nth i out dy).
Proof.
  revert out. induction l as [|x l IH]; intros out H i Hi; [cbn in Hi; lia|].
  cbn [mapM] in H. destruct (f x) as [y|e] eqn:E; [|discriminate H]. cbn [bind] in H.
  destruct (mapM f l) as [ys|e]; [|discriminate H]. cbn [bind] in H.
  assert (E2 : out = y :: ys) by congruence. subst out.
  destruct i as [|i]; [exact E|]. cbn [nth]. apply (IH ys eq_refl). cbn in Hi. lia.
Qed.

Lemma inner_diag n f g i : (i < n)%nat -> inner n (diag f i) g = f i * g i.
Proof.
  intros Hi. rewrite (inner_single n _ g i Hi).
  - unfold diag. rewrite Nat.eqb_refl. reflexivity.
  - intros k _ Hk. unfold diag. destruct (Nat.eqb_spec i k); [congruence|ring].
Qed.

Section Pack.
Variables (fx : fixed) (d v : design) (DN : nat -> dirs) (i : nat).
Let n := f_n fx.
Hypothesis Hn : (2 <= n)%nat.
Hypothesis Hi : (i < n)%nat.
Hypothesis Hw : wind_ok fx (fun _ => d) 0.
Hypothesis Hr : radial_ok n d v.
Let w := wind_seeded fx d.
Let Vx' := inner (3 * n + 8) (fun k => wv_vxd w k i) (yvel n v).
Let Vy' := inner (3 * n + 8) (fun k => wv_vyd w k i) (yvel n v).

Lemma pack_rate :
  load_rate n (load_dict (dN_dX DN (dV_dw n (wv_vxd w)) (dV_dw n (wv_vyd w)))
                         (dN_dprecurve DN (dV_dcurve n (wv_vxd w)) (dV_dcurve n (wv_vyd w)))) v i
  = inner 8 (DN i) (svel v Vx' Vy' i).
Proof.
  assert (RX : inner n (fun k => wv_vxd w k i) (x_r v) = wv_vxd w i i * x_r v i).
  { apply (inner_single n (fun k => wv_vxd w k i) (x_r v) i Hi). intros k Hk Hki. destruct Hr as [Z|(Hc & Hinc & Hp)]; [rewrite Z by assumption; ring|].
    destruct (r_off fx d Hn Hw i k Hi Hk (not_eq_sym Hki) Hc Hp Hinc) as (E & _). fold w in E. rewrite E. ring. }
  assert (RY : inner n (fun k => wv_vyd w k i) (x_r v) = wv_vyd w i i * x_r v i).
  { apply (inner_single n (fun k => wv_vyd w k i) (x_r v) i Hi). intros k Hk Hki. destruct Hr as [Z|(Hc & Hinc & Hp)]; [rewrite Z by assumption; ring|].
    destruct (r_off fx d Hn Hw i k Hi Hk (not_eq_sym Hki) Hc Hp Hinc) as (_ & E). fold w in E. rewrite E. ring. }
  assert (SX : inner n (fun k => wv_vxd w (2 * n + k)%nat i) (x_presweep v) = wv_vxd w (2 * n + i)%nat i * x_presweep v i).
  { apply (inner_single n (fun k => wv_vxd w (2 * n + k)%nat i) (x_presweep v) i Hi). intros k Hk Hki.
    destruct (ps_off fx d Hn Hw i k Hi Hk (not_eq_sym Hki)) as (E & _). fold n w in E. rewrite E. ring. }
  assert (SY : inner n (fun k => wv_vyd w (2 * n + k)%nat i) (x_presweep v) = wv_vyd w (2 * n + i)%nat i * x_presweep v i).
  { apply (inner_single n (fun k => wv_vyd w (2 * n + k)%nat i) (x_presweep v) i Hi). intros k Hk Hki.
    destruct (ps_off fx d Hn Hw i k Hi Hk (not_eq_sym Hki)) as (_ & E). fold n w in E. rewrite E. ring. }
  unfold Vx', Vy'. rewrite !inner_y, RX, RY, SX, SY. unfold load_rate, load_dict.
  cbn [l_dr l_dchord l_dtheta l_dpresweep l_dprecurve l_dRhub l_dRtip l_dprecone l_dtilt l_dhubHt l_dyaw l_dshear l_dazimuth l_dUinf l_dOmega l_dpitch].
  rewrite !inner_diag by exact Hi.
  replace (inner n (fun j => dN_dprecurve DN (dV_dcurve n (wv_vxd w)) (dV_dcurve n (wv_vyd w)) j i) (x_precurve v))
    with (DN i 2%nat * inner n (fun j => wv_vxd w (n + j)%nat i) (x_precurve v) + DN i 3%nat * inner n (fun j => wv_vyd w (n + j)%nat i) (x_precurve v)).
  2: { unfold dN_dprecurve, dV_dcurve. rewrite inner_add, !inner_scal. reflexivity. }
  unfold dN_dX, stackX, dN_dz, dN_dw, dV_dw, ridx, zidx. cbn [Nat.ltb Nat.leb existsb Nat.eqb orb nth Nat.sub inner svel].
  rewrite ?Nat.add_0_r.
  set (a1 := inner n (fun j => wv_vxd w (n + j)%nat i) (x_precurve v)). set (a2 := inner n (fun j => wv_vyd w (n + j)%nat i) (x_precurve v)).
  unfold radians. ring.
Qed.
End Pack.

(** The loads of all stations. *)
Lemma loads_jac_station npi bq fx D j : loads_jac npi bq fx D = Ok j -> exists (l : nat -> sload R) (dN dT dR : nat -> dirs),
  (forall i, (i < f_n fx)%nat -> station_dv npi bq fx D i = Ok (l i, dN i, dT i, dR i)) /\
  let n := f_n fx in let w := wind_seeded fx D in
  j = mkJac (fun i => o_Np (l i)) (fun i => o_Tp (l i))
        (dN_dX (fun i => total (dN i) (dR i)) (dV_dw n (wv_vxd w)) (dV_dw n (wv_vyd w)))
        (dN_dX (fun i => total (dT i) (dR i)) (dV_dw n (wv_vxd w)) (dV_dw n (wv_vyd w)))
        (dN_dprecurve (fun i => total (dN i) (dR i)) (dV_dcurve n (wv_vxd w)) (dV_dcurve n (wv_vyd w)))
        (dN_dprecurve (fun i => total (dT i) (dR i)) (dV_dcurve n (wv_vxd w)) (dV_dcurve n (wv_vyd w))).
Proof.
  unfold loads_jac. destruct (mapM _ _) as [out|e] eqn:E; [|discriminate]. cbn [bind]. intros H.
  set (z := (zero_load, (fun _ => 0), (fun _ => 0), (fun _ => 0)) : sload R * dirs * dirs * dirs) in *.
  exists (fun i => fst (fst (fst (nth i out z)))), (fun i => snd (fst (fst (nth i out z)))), (fun i => snd (fst (nth i out z))), (fun i => snd (nth i out z)).
  split.
  - intros i Hi. pose proof (mapM_nth _ _ _ 0%nat z E i) as K. rewrite seq_length in K. specialize (K Hi).
    rewrite seq_nth in K by exact Hi. change (0 + i)%nat with i in K. rewrite K. destruct (nth i out z) as [[[? ?] ?] ?]. reflexivity.
  - cbv zeta. congruence.
Qed.

Lemma loads_rate npi bq fx (D : R -> design) (t : R) (v : design) j :
  (2 <= f_n fx)%nat -> design_derive (f_n fx) D t v -> wind_ok fx D t -> radial_ok (f_n fx) (D t) v ->
  (forall i, (i < f_n fx)%nat -> station_ok npi bq fx D t i) ->
  loads_jac npi bq fx (D t) = Ok j ->
  forall i, (i < f_n fx)%nat -> exists l, station_result npi bq fx (D t) i = Ok l /\ j_Np j i = o_Np l /\ j_Tp j i = o_Tp l /\
    is_derive (fun s => blade_Np npi bq fx (D s) i) t (load_rate (f_n fx) (load_dict (j_NX j) (j_Npc j)) v i) /\
    (o_ct l <> 0 -> is_derive (fun s => blade_Tp npi bq fx (D s) i) t (load_rate (f_n fx) (load_dict (j_TX j) (j_Tpc j)) v i)).
Proof.
  intros Hn HD Hw Hr Hst Hj i Hi.
  destruct (loads_jac_station npi bq fx (D t) j Hj) as (l & dN & dT & dR & HS & ->). cbn [j_Np j_Tp j_NX j_TX j_Npc j_Tpc].
  destruct (wind_rate fx D t v Hn HD Hw i Hi) as (WX & WY).
  destruct (station_rate npi bq fx D t v i _ _ Hi HD WX WY (l i) (dN i) (dT i) (dR i) (HS i Hi) (Hst i Hi)) as (A & B & C).
  exists (l i). split; [exact A|]. split; [reflexivity|]. split; [reflexivity|].
  rewrite !(pack_rate fx (D t) v _ i Hn Hi (wind_ok_const fx D t Hw) Hr). split; [exact B|exact C].
Qed.

Lemma distributed_rate npi bq fx (D : R -> design) (t : R) (v : design) Np Tp dNp dTp :
  (2 <= f_n fx)%nat -> design_derive (f_n fx) D t v -> wind_ok fx D t -> radial_ok (f_n fx) (D t) v ->
  (forall i, (i < f_n fx)%nat -> station_ok npi bq fx D t i) ->
  distributed_dv npi bq fx (D t) = Ok (Np, Tp, dNp, dTp) ->
  forall i, (i < f_n fx)%nat -> exists l, station_result npi bq fx (D t) i = Ok l /\ Np i = o_Np l /\ Tp i = o_Tp l /\
    is_derive (fun s => blade_Np npi bq fx (D s) i) t (load_rate (f_n fx) dNp v i) /\
    (o_ct l <> 0 -> is_derive (fun s => blade_Tp npi bq fx (D s) i) t (load_rate (f_n fx) dTp v i)).
Proof.
  intros Hn HD Hw Hr Hst. unfold distributed_dv. destruct (loads_jac npi bq fx (D t)) as [j|e] eqn:E; [|discriminate]. cbn [bind].
  intros H. destruct (ok4_inj _ _ _ _ _ _ _ _ H) as (<- & <- & <- & <-).
  exact (loads_rate npi bq fx D t v j Hn HD Hw Hr Hst E).
Qed.
