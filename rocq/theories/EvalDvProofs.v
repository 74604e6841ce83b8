(** Derivatives of the rotor totals, power and coefficients: evaluate. *)
From Coquelicot Require Import Coquelicot.
From Coq Require Import Reals Bool Arith List Lia Lra.
From Verif Require Import Prelim Num Bem BemGeomSpec BemGeomProofs IndSpec DiffSpec BemDiff DeriveLib AdjointProofs Blade BladeDiff
  BladeDiffSpec StationDvProofs BladeDvProofs.
Import ListNotations.
Open Scope R_scope.

Lemma thrustTorque_loads_ext n Np Np' Tp Tp' r pc ps precone Rhub Rtip ct st :
  (forall i, (i < n)%nat -> Np i = Np' i) -> (forall i, (i < n)%nat -> Tp i = Tp' i) ->
  thrustTorque n Np Tp r pc ps precone Rhub Rtip ct st = thrustTorque n Np' Tp' r pc ps precone Rhub Rtip ct st.
Proof.
  intros HN HT.
  assert (P : forall f g : arr, (forall i, (i < n)%nat -> f i = g i) -> forall i, (i <= n + 1)%nat -> pad n 0 f 0 i = pad n 0 g 0 i).
  { intros f g H i Hi. unfold pad. destruct (Nat.eqb_spec i 0); [reflexivity|]. destruct (Nat.eqb_spec i (n + 1)); [reflexivity|]. apply H. lia. }
  unfold thrustTorque, defineCurvature.
  repeat match goal with |- (_, _) = (_, _) => apply (f_equal2 pair) end; apply trapz_ext; try reflexivity; intros i Hi;
    first [rewrite (P Np Np' HN i Hi)|rewrite (P Tp Tp' HT i Hi)]; reflexivity.
Qed.

(** What a gradient says about the rate of change. *)
Definition grate (n : nat) (g : grad) (v : design) : R := total_rate n (tt_dict g) v.

Lemma grate_add n a b v : grate n (gadd a b) v = grate n a v + grate n b v.
Proof.
  unfold grate, total_rate, tt_dict, gadd. cbn [g_s g_v e_dprecone e_dtilt e_dhubHt e_dRhub e_dRtip e_dprecurveTip e_dpresweepTip
    e_dyaw e_dshear e_dUinf e_dOmega e_dpitch e_dr e_dchord e_dtheta e_dprecurve e_dpresweep]. rewrite !inner_add. ring.
Qed.
Lemma grate_scale n c a v : grate n (gscale c a) v = c * grate n a v.
Proof.
  unfold grate, total_rate, tt_dict, gscale. cbn [g_s g_v e_dprecone e_dtilt e_dhubHt e_dRhub e_dRtip e_dprecurveTip e_dpresweepTip
    e_dyaw e_dshear e_dUinf e_dOmega e_dpitch e_dr e_dchord e_dtheta e_dprecurve e_dpresweep]. rewrite !inner_scal. ring.
Qed.
Lemma grate_zero n v : grate n gzero v = 0.
Proof.
  unfold grate, total_rate, tt_dict, gzero. cbn [g_s g_v e_dprecone e_dtilt e_dhubHt e_dRhub e_dRtip e_dprecurveTip e_dpresweepTip
    e_dyaw e_dshear e_dUinf e_dOmega e_dpitch e_dr e_dchord e_dtheta e_dprecurve e_dpresweep]. rewrite !inner_zero. ring.
Qed.

Lemma inner_add_r N f g h : inner N f (fun k => g k + h k) = inner N f g + inner N f h.
Proof. induction N; cbn [inner]; [ring|]. rewrite IHN. ring. Qed.
Lemma inner_const_r N f g (c : R) : inner N f (fun k => g k * c) = asum N (fun k => f k * g k) * c.
Proof. induction N; cbn [inner asum]; [ring|]. rewrite IHN. ring. Qed.
Lemma inner_mul_r N f g h : inner N f (fun k => g k * h k) = inner N (fun k => f k * g k) h.
Proof. induction N; cbn [inner]; [ring|]. rewrite IHN. ring. Qed.
Lemma asum_add N f g : asum N (fun k => f k + g k) = asum N f + asum N g.
Proof. induction N; cbn [asum]; [ring|]. rewrite IHN. ring. Qed.
Lemma inner_swap m N f (P : nat -> arr) c : inner N f (fun i => inner m (fun k => P k i) c) = inner m (fun k => asum N (fun i => f i * P k i)) c.
Proof.
  induction N as [|N IH]; cbn [inner asum].
  - rewrite inner_zero. reflexivity.
  - rewrite IH. rewrite inner_add. rewrite inner_scal. reflexivity.
Qed.

(** Sum over the stations of adjoint times load rate. *)
Lemma load_rate_sum n F X P v : x_azimuth v = 0 ->
  inner n F (load_rate n (load_dict X P) v) =
  inner n (fun i => F i * X 0%nat i) (x_r v) + inner n (fun i => F i * X 1%nat i) (x_chord v) + inner n (fun i => F i * X 2%nat i) (x_theta v)
  + inner n (fun k => asum n (fun i => F i * P k i)) (x_precurve v) + inner n (fun i => F i * X 5%nat i) (x_presweep v)
  + asum n (fun i => F i * X 3%nat i) * x_Rhub v + asum n (fun i => F i * X 4%nat i) * x_Rtip v
  + asum n (fun i => F i * X 6%nat i) * x_precone v + asum n (fun i => F i * X 7%nat i) * x_tilt v
  + asum n (fun i => F i * X 8%nat i) * x_hubHt v + asum n (fun i => F i * X 9%nat i) * x_yaw v
  + asum n (fun i => F i * X 10%nat i) * x_shear v
  + asum n (fun i => F i * X 12%nat i) * x_Uinf v + asum n (fun i => F i * X 13%nat i) * x_Omega v
  + asum n (fun i => F i * X 14%nat i) * x_pitch v.
Proof.
  intros HA.
  transitivity (inner n F (fun i => X 0%nat i * x_r v i + X 1%nat i * x_chord v i + X 2%nat i * x_theta v i
    + inner n (fun k => P k i) (x_precurve v) + X 5%nat i * x_presweep v i
    + X 3%nat i * x_Rhub v + X 4%nat i * x_Rtip v + X 6%nat i * x_precone v + X 7%nat i * x_tilt v + X 8%nat i * x_hubHt v
    + X 9%nat i * x_yaw v + X 10%nat i * x_shear v + X 12%nat i * x_Uinf v + X 13%nat i * x_Omega v + X 14%nat i * x_pitch v)).
  - apply BladeDvProofs.inner_ext; [reflexivity|]. intros i Hi. unfold load_rate, load_dict.
    cbn [l_dr l_dchord l_dtheta l_dpresweep l_dprecurve l_dRhub l_dRtip l_dprecone l_dtilt l_dhubHt l_dyaw l_dshear l_dazimuth l_dUinf l_dOmega l_dpitch].
    rewrite !inner_diag by exact Hi. rewrite HA. ring.
  - rewrite !inner_add_r, !inner_const_r, !inner_mul_r, inner_swap. ring.
Qed.

(** ** One azimuth *)
Lemma set_azimuth_derive n D t v a : design_derive n D t v -> design_derive n (fun s => set_azimuth (D s) a) t (set_azimuth v 0).
Proof.
  intros (H1 & H2 & H3 & H4 & H5 & H6 & H7 & H8 & H9 & H10 & H11 & H12 & H13 & H14 & H15 & H16 & H17 & H18).
  unfold design_derive, arrays_derive in *. cbn [set_azimuth x_r x_chord x_theta x_precurve x_presweep x_precone x_tilt x_hubHt x_Rhub x_Rtip
    x_precurveTip x_presweepTip x_yaw x_shear x_azimuth x_Uinf x_Omega x_pitch].
  repeat match goal with |- _ /\ _ => split end; try assumption. apply d_const.
Qed.

Definition nth5 (q : nat) (p : R * R * R * R * R) : R := nth q [oT p; oY p; oZ p; oQ p; oM p] 0.

Lemma seeded_eye q p : (q < 5)%nat -> seeded (eye 0 q) (eye 1 q) (eye 2 q) (eye 3 q) (eye 4 q) p = nth5 q p.
Proof.
  intros H. destruct p as [[[[T Y] Z] Q] M]. unfold seeded, nth5, oT, oY, oZ, oQ, oM. cbn [fst snd].
  destruct q as [|[|[|[|[|q]]]]]; try lia; unfold eye; cbn [Nat.eqb nth]; ring.
Qed.

Section Sector.
Variables (npi : R) (bq : rootfinder R) (fx : fixed) (D : R -> design) (t : R) (v : design).
Let n := f_n fx.
Hypothesis Hn : (2 <= n)%nat.
Hypothesis HD : design_derive n D t v.
Hypothesis Hr : radial_ok n (D t) v.
Hypothesis Hseg : forall rf cf wf, extends n (x_Rhub (D t)) (x_r (D t)) (x_Rtip (D t)) rf ->
     extends n 0 (x_precurve (D t)) (x_precurveTip (D t)) cf ->
     let c := defineCurvature (n + 2) rf cf wf (radians (x_precone (D t))) in
     proper_segments (n + 2) (out_x c) (out_z c).

Section OneAz.
Variable az : R.
Let Da := fun s => sector_design (D s) az.
Hypothesis Hw : wind_ok fx Da t.
Hypothesis Hst : forall i, (i < n)%nat -> station_ok npi bq fx Da t i /\ forall l, station_result npi bq fx (Da t) i = Ok l -> o_ct l <> 0.
Variable j : load_jac.
Hypothesis Hj : loads_jac npi bq fx (Da t) = Ok j.

Lemma az_rate q : (q < 5)%nat ->
  is_derive (fun s => nth5 q (blade_out npi bq fx (D s) az)) t (grate n (thrustTorqueDeriv fx (D t) j q) v).
Proof.
  intros Hq.
  assert (HDa : design_derive n Da t (set_azimuth v 0)) by (apply set_azimuth_derive; exact HD).
  assert (Hra : radial_ok n (Da t) (set_azimuth v 0)) by exact Hr.
  pose proof (loads_rate npi bq fx Da t (set_azimuth v 0) j Hn HDa Hw Hra (fun i Hi => proj1 (Hst i Hi)) Hj) as LR.
  set (v0 := set_azimuth v 0) in *.
  set (NC := fun i s => if Nat.ltb i n then blade_Np npi bq fx (Da s) i else j_Np j i).
  set (TC := fun i s => if Nat.ltb i n then blade_Tp npi bq fx (Da s) i else j_Tp j i).
  assert (N0 : at_time NC t = j_Np j).
  { apply FunctionalExtensionality.functional_extensionality. intros i. unfold at_time, NC. destruct (Nat.ltb_spec i n); [|reflexivity].
    destruct (LR i H) as (l & E & E1 & _). unfold blade_Np. rewrite E, E1. reflexivity. }
  assert (T0 : at_time TC t = j_Tp j).
  { apply FunctionalExtensionality.functional_extensionality. intros i. unfold at_time, TC. destruct (Nat.ltb_spec i n); [|reflexivity].
    destruct (LR i H) as (l & E & _ & E1 & _). unfold blade_Tp. rewrite E, E1. reflexivity. }
  assert (DN : curves_derive n NC t (load_rate n (load_dict (j_NX j) (j_Npc j)) v0)).
  { intros i Hi. unfold NC. destruct (Nat.ltb_spec i n); [|lia]. destruct (LR i Hi) as (l & _ & _ & _ & E & _). exact E. }
  assert (DT : curves_derive n TC t (load_rate n (load_dict (j_TX j) (j_Tpc j)) v0)).
  { intros i Hi. unfold TC. destruct (Nat.ltb_spec i n); [|lia]. destruct (LR i Hi) as (l & E0 & _ & _ & _ & E). apply E.
    exact (proj2 (Hst i Hi) l E0). }
  destruct HD as (H1 & H2 & H3 & H4 & H5 & H6 & H7 & H8 & H9 & H10 & H11 & H12 & H13 & H14 & H15 & H16 & H17 & H18).
  pose proof (thrustTorque_bv_exact n NC TC (fun i s => x_r (D s) i) (fun i s => x_precurve (D s) i) (fun i s => x_presweep (D s) i)
    (fun s => radians (x_precone (D s))) (fun s => x_Rhub (D s)) (fun s => x_Rtip (D s)) (fun s => x_precurveTip (D s)) (fun s => x_presweepTip (D s))
    t _ _ (x_r v) (x_precurve v) (x_presweep v) (radians (x_precone v)) (x_Rhub v) (x_Rtip v) (x_precurveTip v) (x_presweepTip v)
    (eye 0) (eye 1) (eye 2) (eye 3) (eye 4) q DN DT H1 H4 H5 (d_radians _ _ _ H6) H9 H10 H11 H12 Hseg) as G.
  cbv zeta in G. rewrite N0, T0 in G.
  eapply d_ext.
  - apply (is_derive_ext (fun s => seeded (eye 0 q) (eye 1 q) (eye 2 q) (eye 3 q) (eye 4 q)
      (thrustTorque n (at_time NC s) (at_time TC s) (at_time (fun i s => x_r (D s) i) s) (at_time (fun i s => x_precurve (D s) i) s)
        (at_time (fun i s => x_presweep (D s) i) s) (radians (x_precone (D s))) (x_Rhub (D s)) (x_Rtip (D s)) (x_precurveTip (D s)) (x_presweepTip (D s))))).
    { intros s. rewrite (seeded_eye q _ Hq). unfold blade_out. apply f_equal.
      apply thrustTorque_loads_ext; intros i Hi; unfold at_time, NC, TC; destruct (Nat.ltb_spec i n); try lia; reflexivity. }
    exact G.
  - change (at_time (fun i s => x_r (D s) i) t) with (x_r (D t)). change (at_time (fun i s => x_precurve (D s) i) t) with (x_precurve (D t)).
    change (at_time (fun i s => x_presweep (D s) i) t) with (x_presweep (D t)).
    rewrite !load_rate_sum by reflexivity.
    unfold grate, total_rate, tt_dict, thrustTorqueDeriv. fold n.
    set (b := thrustTorque_bv n (j_Np j) (j_Tp j) _ _ _ _ _ _ _ _ _ _ _ _ _ q).
    cbn [g_s g_v nth e_dprecone e_dtilt e_dhubHt e_dRhub e_dRtip e_dprecurveTip e_dpresweepTip
      e_dyaw e_dshear e_dUinf e_dOmega e_dpitch e_dr e_dchord e_dtheta e_dprecurve e_dpresweep].
    cbn [v0 set_azimuth x_r x_chord x_theta x_precurve x_presweep x_precone x_tilt x_hubHt x_Rhub x_Rtip
      x_precurveTip x_presweepTip x_yaw x_shear x_azimuth x_Uinf x_Omega x_pitch].
    rewrite !inner_add.
    rewrite !asum_add.
    replace (fun k => asum n (fun i => tb_np b i * j_Npc j k i + tb_tp b i * j_Tpc j k i))
      with (fun k => asum n (fun i => tb_np b i * j_Npc j k i) + asum n (fun i => tb_tp b i * j_Tpc j k i))
      by (apply FunctionalExtensionality.functional_extensionality; intros k; rewrite asum_add; reflexivity).
    rewrite !inner_add. unfold radians. ring.
Qed.
End OneAz.

(** ** Sum over the azimuths *)
Definition tracks (A : R -> totals) (td : totals_dv) : Prop :=
  td_tot td = A t /\
  is_derive (fun s => t_T (A s)) t (grate n (td_T td) v) /\ is_derive (fun s => t_Y (A s)) t (grate n (td_Y td) v) /\
  is_derive (fun s => t_Z (A s)) t (grate n (td_Z td) v) /\ is_derive (fun s => t_Q (A s)) t (grate n (td_Q td) v) /\
  is_derive (fun s => t_My (A s)) t (grate n (td_My td) v) /\ is_derive (fun s => t_Mz (A s)) t (grate n (td_Mz td) v) /\
  is_derive (fun s => t_Mb (A s)) t (grate n (td_Mb td) v).

Let B := INR (f_B fx).
Let m := INR (f_nSector fx).
Definition add_az (az : R) (T : totals) (o : R * R * R * R * R) : totals :=
  mkTot (t_T T + B * oT o / m) (t_Y T + B * (oY o * cos az - oZ o * sin az) / m) (t_Z T + B * (oZ o * cos az + oY o * sin az) / m)
    (t_Q T + B * oQ o / m) (t_My T + B * oM o * cos az / m) (t_Mz T + B * oM o * sin az / m) (t_Mb T + oM o / m).

Lemma add_tracks az A td j :
  wind_ok fx (fun s => sector_design (D s) az) t ->
  (forall i, (i < n)%nat -> station_ok npi bq fx (fun s => sector_design (D s) az) t i /\
     forall l, station_result npi bq fx (sector_design (D t) az) i = Ok l -> o_ct l <> 0) ->
  loads_jac npi bq fx (sector_design (D t) az) = Ok j -> m <> 0 ->
  tracks A td -> tracks (fun s => add_az az (A s) (blade_out npi bq fx (D s) az)) (totd_add fx (D t) az j td).
Proof.
  intros Hw Hst Hj Hm (E & HT & HY & HZ & HQ & HMy & HMz & HMb).
  assert (EO : thrustTorque n (j_Np j) (j_Tp j) (x_r (D t)) (x_precurve (D t)) (x_presweep (D t)) (radians (x_precone (D t)))
      (x_Rhub (D t)) (x_Rtip (D t)) (x_precurveTip (D t)) (x_presweepTip (D t)) = blade_out npi bq fx (D t) az).
  { assert (HDa := set_azimuth_derive n D t v (degrees az) HD).
    pose proof (loads_rate npi bq fx (fun s => sector_design (D s) az) t (set_azimuth v 0) j Hn HDa Hw Hr (fun i Hi => proj1 (Hst i Hi)) Hj) as LR.
    unfold blade_out. apply thrustTorque_loads_ext; intros i Hi; destruct (LR i Hi) as (l & E1 & E2 & E3 & _); unfold blade_Np, blade_Tp; rewrite E1; assumption. }
  assert (AR := fun q Hq => az_rate az Hw Hst j Hj q Hq).
  pose proof (AR 0%nat ltac:(lia)) as R0. pose proof (AR 1%nat ltac:(lia)) as R1. pose proof (AR 2%nat ltac:(lia)) as R2.
  pose proof (AR 3%nat ltac:(lia)) as R3. pose proof (AR 4%nat ltac:(lia)) as R4. clear AR.
  unfold nth5 in R0, R1, R2, R3, R4. cbn [nth] in R0, R1, R2, R3, R4.
  unfold tracks, totd_add. fold n. rewrite EO, E.
  destruct (blade_out npi bq fx (D t) az) as [[[[T0 Y0] Z0] Q0] M0] eqn:EB.
  cbn [td_tot td_T td_Y td_Z td_Q td_My td_Mz td_Mb add_az t_T t_Y t_Z t_Q t_My t_Mz t_Mb].
  rewrite !grate_add, !grate_scale, !grate_add, !grate_scale. fold B m.
  split; [reflexivity|].
  repeat match goal with |- _ /\ _ => split end; (der; [exact Hm|]; field; exact Hm).
Qed.

Definition sums (l : list R) (D : design) : totals :=
  let o := blade_out npi bq fx D in
  mkTot (B * list_sum (fun az => oT (o az)) l / m)
        (B * list_sum (fun az => oY (o az) * cos az - oZ (o az) * sin az) l / m)
        (B * list_sum (fun az => oZ (o az) * cos az + oY (o az) * sin az) l / m)
        (B * list_sum (fun az => oQ (o az)) l / m)
        (B * list_sum (fun az => oM (o az) * cos az) l / m)
        (B * list_sum (fun az => oM (o az) * sin az) l / m)
        (list_sum (fun az => oM (o az)) l / m).
Definition tplus (a b : totals) : totals :=
  mkTot (t_T a + t_T b) (t_Y a + t_Y b) (t_Z a + t_Z b) (t_Q a + t_Q b) (t_My a + t_My b) (t_Mz a + t_Mz b) (t_Mb a + t_Mb b).

Lemma totals_eq a b : t_T a = t_T b -> t_Y a = t_Y b -> t_Z a = t_Z b -> t_Q a = t_Q b -> t_My a = t_My b -> t_Mz a = t_Mz b ->
  t_Mb a = t_Mb b -> a = b.
Proof. destruct a as [a1 a2 a3 a4 a5 a6 a7], b as [b1 b2 b3 b4 b5 b6 b7]; cbn [t_T t_Y t_Z t_Q t_My t_Mz t_Mb]; intros; subst; reflexivity. Qed.

Lemma tracks_ext A A' td : (forall s, A s = A' s) -> tracks A td -> tracks A' td.
Proof.
  intros H (E & HT & HY & HZ & HQ & HMy & HMz & HMb). unfold tracks. rewrite <- H. split; [exact E|].
  repeat match goal with |- _ /\ _ => split end;
    (eapply is_derive_ext; [|eassumption]; intros s; rewrite <- H; reflexivity).
Qed.

Lemma sectors_rate l : m <> 0 -> (forall az, In az l ->
    wind_ok fx (fun s => sector_design (D s) az) t /\
    forall i, (i < n)%nat -> station_ok npi bq fx (fun s => sector_design (D s) az) t i /\
      forall l, station_result npi bq fx (sector_design (D t) az) i = Ok l -> o_ct l <> 0) ->
  forall A td td', tracks A td -> sectors_dv npi bq fx (D t) l td = Ok td' -> tracks (fun s => tplus (A s) (sums l (D s))) td'.
Proof.
  intros Hm. induction l as [|az l IH]; intros Hall A td td' HA H.
  - cbn [sectors_dv] in H. assert (td' = td) by congruence. subst td'. apply (tracks_ext A); [|exact HA].
    intros s. apply totals_eq; unfold tplus, sums; cbn [t_T t_Y t_Z t_Q t_My t_Mz t_Mb list_sum fold_right]; field; exact Hm.
  - cbn [sectors_dv] in H. destruct (loads_jac npi bq fx (set_azimuth (D t) (degrees az))) as [j|e] eqn:EJ; [|discriminate H]. cbn [bind] in H.
    destruct (Hall az (or_introl eq_refl)) as [W S].
    pose proof (add_tracks az A td j W S EJ Hm HA) as HA'.
    specialize (IH (fun a Ha => Hall a (or_intror Ha)) _ _ _ HA' H).
    eapply tracks_ext; [|exact IH]. intros s. apply totals_eq; unfold tplus, sums, add_az; cbn [t_T t_Y t_Z t_Q t_My t_Mz t_Mb];
      unfold list_sum; cbn [fold_right]; field; exact Hm.
Qed.
End Sector.

(** ** The outputs *)
Definition rated (n : nat) (t : R) (v : design) (f : R -> R) (E : tdict) : Prop := is_derive f t (total_rate n E v).

Section Finish.
Variables (n : nat) (rho : R) (D : R -> design) (t : R) (v : design).
Hypothesis HD : design_derive n D t v.
Let Rr s := rotor_radius (D s).
Let A s := PI * Rr s ^ 2.
Let q s := 1 / 2 * rho * x_Uinf (D s) ^ 2.
Hypothesis R0 : Rr t <> 0.
Hypothesis U0 : x_Uinf (D t) <> 0.
Hypothesis rho0 : rho <> 0.

Let R' := radians (- x_Rtip (D t) * sin (radians (x_precone (D t))) + x_precurveTip (D t) * cos (radians (x_precone (D t)))) * x_precone v
  + cos (radians (x_precone (D t))) * x_Rtip v + sin (radians (x_precone (D t))) * x_precurveTip v.

Lemma Rr_d : is_derive Rr t R'.
Proof.
  destruct HD as (_ & _ & _ & _ & _ & H6 & _ & _ & _ & H10 & H11 & _). unfold Rr, rotor_radius.
  pose proof (d_radians _ _ _ H6) as H. der. unfold R', radians. ring.
Qed.
Lemma A_d : is_derive A t (2 * PI * Rr t * R').
Proof. pose proof Rr_d. unfold A. der. ring. Qed.
Lemma q_d : is_derive q t (rho * x_Uinf (D t) * x_Uinf v).
Proof. destruct HD as (_ & _ & _ & _ & _ & _ & _ & _ & _ & _ & _ & _ & _ & _ & _ & H16 & _). unfold q. der. field. Qed.
Lemma A_ne : A t <> 0.
Proof. unfold A. apply Rmult_integral_contrapositive_currified; [apply PI_neq0|apply pow_nonzero; exact R0]. Qed.
Lemma q_ne : q t <> 0.
Proof. unfold q. apply Rmult_integral_contrapositive_currified; [lra|apply pow_nonzero; exact U0]. Qed.

Lemma dR_ds_rate : dR_ds (D t) 0 * x_precone v + dR_ds (D t) 4 * x_Rtip v + dR_ds (D t) 5 * x_precurveTip v = R'.
Proof. reflexivity. Qed.

Lemma nz2 (a b : R) : a <> 0 -> b <> 0 -> a * b <> 0.
Proof. intros; apply Rmult_integral_contrapositive_currified; assumption. Qed.
Lemma inner_div N f c g : inner N (fun k => f k / c) g = inner N f g / c.
Proof. unfold Rdiv. apply inner_scal_r. Qed.

Ltac open_rate := unfold grate, total_rate, tt_dict, dC_force, dC_moment, dC_power, dP_of, dA_ds, dq_ds, dU_ds, dOmega_ds;
  cbn [g_s g_v e_dprecone e_dtilt e_dhubHt e_dRhub e_dRtip e_dprecurveTip e_dpresweepTip e_dyaw e_dshear e_dUinf e_dOmega e_dpitch
       e_dr e_dchord e_dtheta e_dprecurve e_dpresweep Nat.eqb];
  rewrite ?inner_div.

Lemma force_rate (F : R) (g : grad) : F <> 0 ->
  total_rate n (tt_dict (dC_force rho (D t) (F / (q t * A t)) F g)) v =
  grate n g v / (q t * A t) - F / (q t * A t) * ((2 * PI * Rr t * R') / A t + rho * x_Uinf (D t) * x_Uinf v / q t).
Proof.
  intros F0. pose proof A_ne as A0. pose proof q_ne as q0. rewrite <- dR_ds_rate. open_rate.
  change (area (D t)) with (A t). change (dyn rho (D t)) with (q t). change (rotorR_d (D t)) with (Rr t).
  cbn [dR_ds nth]. field. repeat split; assumption.
Qed.
Lemma moment_rate (F : R) (g : grad) : F <> 0 ->
  total_rate n (tt_dict (dC_moment rho (D t) (F / (q t * Rr t * A t)) F g)) v =
  grate n g v / (q t * Rr t * A t) - F / (q t * Rr t * A t) * ((2 * PI * Rr t * R') / A t + rho * x_Uinf (D t) * x_Uinf v / q t + R' / Rr t).
Proof.
  intros F0. pose proof A_ne as A0. pose proof q_ne as q0. rewrite <- dR_ds_rate. open_rate.
  change (area (D t)) with (A t). change (dyn rho (D t)) with (q t). change (rotorR_d (D t)) with (Rr t).
  cbn [dR_ds nth]. field. repeat split; assumption.
Qed.
Lemma power_rate (Q : R) (g : grad) : Q <> 0 -> x_Omega (D t) <> 0 ->
  let C := Q * x_Omega (D t) * PI / 30 / (q t * A t * x_Uinf (D t)) in
  total_rate n (tt_dict (dC_power rho (D t) C Q g)) v =
  C * (grate n g v / Q + x_Omega v / x_Omega (D t) - (2 * PI * Rr t * R') / A t - rho * x_Uinf (D t) * x_Uinf v / q t - x_Uinf v / x_Uinf (D t)).
Proof.
  intros Q0 O0 C. pose proof A_ne as A0. pose proof q_ne as q0. rewrite <- dR_ds_rate. open_rate. rewrite !inner_scal_r.
  change (area (D t)) with (A t). change (dyn rho (D t)) with (q t). change (rotorR_d (D t)) with (Rr t).
  cbn [dR_ds nth]. field. repeat split; assumption.
Qed.
Lemma P_rate (Q : R) (g : grad) : total_rate n (tt_dict (dP_of (D t) Q g)) v =
  grate n g v * x_Omega (D t) * PI / 30 + Q * x_Omega v * PI / 30.
Proof. open_rate. rewrite !inner_scal_r. field. Qed.

Lemma force_rated (F : R -> R) (g : grad) : F t <> 0 -> is_derive F t (grate n g v) ->
  rated n t v (fun s => F s / (q s * A s)) (tt_dict (dC_force rho (D t) (F t / (q t * A t)) (F t) g)).
Proof.
  intros F0 HF. pose proof A_d as HA. pose proof q_d as Hq. pose proof A_ne as A0. pose proof q_ne as q0. unfold rated.
  rewrite force_rate by exact F0. der; [exact (nz2 _ _ q0 A0)|]. field. split; assumption.
Qed.
Lemma moment_rated (F : R -> R) (g : grad) : F t <> 0 -> is_derive F t (grate n g v) ->
  rated n t v (fun s => F s / (q s * Rr s * A s)) (tt_dict (dC_moment rho (D t) (F t / (q t * Rr t * A t)) (F t) g)).
Proof.
  intros F0 HF. pose proof A_d as HA. pose proof q_d as Hq. pose proof Rr_d as HR. pose proof A_ne as A0. pose proof q_ne as q0. unfold rated.
  rewrite moment_rate by exact F0. der; [exact (nz2 _ _ (nz2 _ _ q0 R0) A0)|]. field. repeat split; assumption.
Qed.
Lemma P_rated (Q : R -> R) (g : grad) : is_derive Q t (grate n g v) ->
  rated n t v (fun s => Q s * x_Omega (D s) * PI / 30) (tt_dict (dP_of (D t) (Q t) g)).
Proof.
  intros HQ. destruct HD as (_ & _ & _ & _ & _ & _ & _ & _ & _ & _ & _ & _ & _ & _ & _ & _ & H17 & _).
  unfold rated. rewrite P_rate. der; [lra|]. field.
Qed.
Lemma CP_rated (Q : R -> R) (g : grad) : Q t <> 0 -> x_Omega (D t) <> 0 -> is_derive Q t (grate n g v) ->
  rated n t v (fun s => Q s * x_Omega (D s) * PI / 30 / (q s * A s * x_Uinf (D s)))
    (tt_dict (dC_power rho (D t) (Q t * x_Omega (D t) * PI / 30 / (q t * A t * x_Uinf (D t))) (Q t) g)).
Proof.
  intros Q0 O0 HQ. pose proof A_d as HA. pose proof q_d as Hq. pose proof A_ne as A0. pose proof q_ne as q0.
  destruct HD as (_ & _ & _ & _ & _ & _ & _ & _ & _ & _ & _ & _ & _ & _ & _ & H16 & H17 & _).
  unfold rated. pose proof (power_rate (Q t) g Q0 O0) as E. cbv zeta in E. rewrite E. clear E.
  der; [lra|exact (nz2 _ _ (nz2 _ _ q0 A0) U0)|]. field. repeat split; assumption.
Qed.
End Finish.

(** ** evaluate *)
Lemma evaluate_totals npi bq fx (D : R -> design) (t : R) (v : design) td :
  (2 <= f_n fx)%nat -> (1 <= f_nSector fx)%nat -> design_derive (f_n fx) D t v -> sectors_ok npi bq fx D t v ->
  sectors_dv npi bq fx (D t) (azimuths (f_nSector fx)) totd0 = Ok td ->
  tracks fx t v (fun s => rotor_totals npi bq fx (D s)) td.
Proof.
  intros Hn Hm HD (Hr & Hseg & Hall) H.
  assert (m0 : INR (f_nSector fx) <> 0) by (apply not_0_INR; lia).
  assert (T0 : tracks fx t v (fun _ => tot0) totd0).
  { unfold tracks, totd0. cbn [td_tot td_T td_Y td_Z td_Q td_My td_Mz td_Mb tot0 t_T t_Y t_Z t_Q t_My t_Mz t_Mb]. rewrite grate_zero.
    split; [reflexivity|]. repeat match goal with |- _ /\ _ => split end; apply d_const. }
  pose proof (sectors_rate npi bq fx D t v Hn HD Hr Hseg (azimuths (f_nSector fx)) m0 Hall _ _ _ T0 H) as K.
  eapply tracks_ext; [|exact K]. intros s. apply totals_eq; unfold tplus, sums, rotor_totals, tot0; cbn [t_T t_Y t_Z t_Q t_My t_Mz t_Mb]; ring.
Qed.

Lemma evaluate_rate npi bq fx (D : R -> design) (t : R) (v : design) E :
  (2 <= f_n fx)%nat -> (1 <= f_nSector fx)%nat -> design_derive (f_n fx) D t v -> sectors_ok npi bq fx D t v ->
  evaluate_dv npi bq fx (D t) = Ok E ->
  let T s := rotor_totals npi bq fx (D s) in
  let rate e := total_rate (f_n fx) e v in
  ev_tot E = T t /\ ev_P E = power (T t) (D t) /\
  is_derive (fun s => t_T (T s)) t (rate (ev_dT E)) /\ is_derive (fun s => t_Y (T s)) t (rate (ev_dY E)) /\
  is_derive (fun s => t_Z (T s)) t (rate (ev_dZ E)) /\ is_derive (fun s => t_Q (T s)) t (rate (ev_dQ E)) /\
  is_derive (fun s => t_My (T s)) t (rate (ev_dMy E)) /\ is_derive (fun s => t_Mz (T s)) t (rate (ev_dMz E)) /\
  is_derive (fun s => t_Mb (T s)) t (rate (ev_dMb E)) /\ is_derive (fun s => power (T s) (D s)) t (rate (ev_dP E)).
Proof.
  intros Hn Hm HD Hok H. unfold evaluate_dv in H. destruct (sectors_dv _ _ _ _ _ _) as [td|e] eqn:ES; [|discriminate H].
  cbn [bind] in H. assert (EE : E = finish_dv fx (D t) td) by congruence. subst E. intros T rate.
  destruct (evaluate_totals npi bq fx D t v td Hn Hm HD Hok ES) as (E0 & HT & HY & HZ & HQ & HMy & HMz & HMb).
  unfold finish_dv. cbn [ev_tot ev_P ev_dT ev_dY ev_dZ ev_dQ ev_dMy ev_dMz ev_dMb ev_dP].
  split; [exact E0|]. split; [rewrite E0; reflexivity|].
  do 7 (split; [assumption|]). rewrite E0. exact (P_rated (f_n fx) D t v HD (fun s => t_Q (T s)) (td_Q td) HQ).
Qed.

Lemma evaluate_coeff_rate npi bq fx (D : R -> design) (t : R) (v : design) E :
  (2 <= f_n fx)%nat -> (1 <= f_nSector fx)%nat -> design_derive (f_n fx) D t v -> sectors_ok npi bq fx D t v ->
  evaluate_dv npi bq fx (D t) = Ok E -> rotor_radius (D t) <> 0 -> x_Uinf (D t) <> 0 -> f_rho fx <> 0 ->
  let T s := rotor_totals npi bq fx (D s) in
  let rate e := total_rate (f_n fx) e v in
  let F s := force_scale fx (D s) in let M s := moment_scale fx (D s) in
  (t_T (T t) <> 0 -> is_derive (fun s => t_T (T s) / F s) t (rate (ev_dCT E))) /\
  (t_Y (T t) <> 0 -> is_derive (fun s => t_Y (T s) / F s) t (rate (ev_dCY E))) /\
  (t_Z (T t) <> 0 -> is_derive (fun s => t_Z (T s) / F s) t (rate (ev_dCZ E))) /\
  (t_Q (T t) <> 0 -> is_derive (fun s => t_Q (T s) / M s) t (rate (ev_dCQ E))) /\
  (t_My (T t) <> 0 -> is_derive (fun s => t_My (T s) / M s) t (rate (ev_dCMy E))) /\
  (t_Mz (T t) <> 0 -> is_derive (fun s => t_Mz (T s) / M s) t (rate (ev_dCMz E))) /\
  (t_Mb (T t) <> 0 -> is_derive (fun s => t_Mb (T s) / M s) t (rate (ev_dCMb E))) /\
  (t_Q (T t) <> 0 -> x_Omega (D t) <> 0 ->
     is_derive (fun s => power (T s) (D s) / (F s * x_Uinf (D s))) t (rate (ev_dCP E))).
Proof.
  intros Hn Hm HD Hok H R0 U0 rho0. unfold evaluate_dv in H. destruct (sectors_dv _ _ _ _ _ _) as [td|e] eqn:ES; [|discriminate H].
  cbn [bind] in H. assert (EE : E = finish_dv fx (D t) td) by congruence. subst E. intros T rate F M.
  destruct (evaluate_totals npi bq fx D t v td Hn Hm HD Hok ES) as (E0 & HT & HY & HZ & HQ & HMy & HMz & HMb).
  unfold finish_dv. cbn [ev_dCT ev_dCY ev_dCZ ev_dCQ ev_dCMy ev_dCMz ev_dCMb ev_dCP]. rewrite E0. fold (T t).
  assert (EM : forall x s, x / (1 / 2 * f_rho fx * x_Uinf (D s) ^ 2 * rotor_radius (D s) * (PI * rotor_radius (D s) ^ 2)) = x / M s).
  { intros x s. apply (f_equal2 Rdiv); [reflexivity|]. unfold M, moment_scale, force_scale. ring. }
  repeat match goal with |- _ /\ _ => split end; intros N0.
  - exact (force_rated (f_n fx) (f_rho fx) D t v HD R0 U0 rho0 (fun s => t_T (T s)) (td_T td) N0 HT).
  - exact (force_rated (f_n fx) (f_rho fx) D t v HD R0 U0 rho0 (fun s => t_Y (T s)) (td_Y td) N0 HY).
  - exact (force_rated (f_n fx) (f_rho fx) D t v HD R0 U0 rho0 (fun s => t_Z (T s)) (td_Z td) N0 HZ).
  - eapply is_derive_ext; [intros s; apply EM|]. exact (moment_rated (f_n fx) (f_rho fx) D t v HD R0 U0 rho0 (fun s => t_Q (T s)) (td_Q td) N0 HQ).
  - eapply is_derive_ext; [intros s; apply EM|]. exact (moment_rated (f_n fx) (f_rho fx) D t v HD R0 U0 rho0 (fun s => t_My (T s)) (td_My td) N0 HMy).
  - eapply is_derive_ext; [intros s; apply EM|]. exact (moment_rated (f_n fx) (f_rho fx) D t v HD R0 U0 rho0 (fun s => t_Mz (T s)) (td_Mz td) N0 HMz).
  - eapply is_derive_ext; [intros s; apply EM|]. exact (moment_rated (f_n fx) (f_rho fx) D t v HD R0 U0 rho0 (fun s => t_Mb (T s)) (td_Mb td) N0 HMb).
  - intros O0. exact (CP_rated (f_n fx) (f_rho fx) D t v HD R0 U0 rho0 (fun s => t_Q (T s)) (td_Q td) N0 O0 HQ).
Qed.
