(** The Betz limit of a rotor (C101). *)
From Coquelicot Require Import Coquelicot.
From Coq Require Import Reals Bool Arith List Lra Lia Psatz.
From Verif Require Import Prelim Num CSystemSpec Interp Bem BemGeomSpec BemGeomProofs Blade IndSpec IndProofs FlProofs BladeSpec StationProofs StationLoads InterpSpec ConstructProofs BladeProofs
  SectorProofs SimilaritySpec SimilarityProofs SymmetryProofs BladeDvProofs InverseForward PolarProofs TwistProofs BetzSpec BetzProofs BetzStation.
Import ListNotations.
Open Scope R_scope.

(** ** The constructed object *)
Lemma zeros_last nt nd (r : list R) : (if reqb 0 (last (map (fun _ => 0) r) 0) then set_last (Interp.interp nt nd (map (fun _ => 0) r)) (map (fun _ => 0) r) else map (fun _ => 0) r)
  = map (fun _ : R => 0) r.
Proof.
  destruct (reqb _ _); [|reflexivity].
  replace (map (fun _ : R => 0) r) with (map (Rmult 0) r) by (apply map_ext; intros; ring).
  rewrite interp_scale, set_last_map. set (x := Interp.interp nt nd r).
  destruct r as [|a l]; [reflexivity|]. unfold set_last. rewrite map_app. cbn [map]. replace (0 * x) with (0 * last (a :: l) 0) by ring.
  change [0 * last (a :: l) 0] with (map (Rmult 0) [last (a :: l) 0]). rewrite <- map_app, <- app_removelast_last by discriminate. reflexivity.
Qed.
Lemma nth_zeros {X} (r : list X) i : nth i (map (fun _ => 0) r) 0 = 0.
Proof. revert i. induction r as [|x r IH]; intros [|i]; cbn; auto. Qed.

Record flat (b : blade) : Prop := mkFlat {
  fl_cone : b_precone b = 0; fl_tilt : b_tilt b = 0; fl_yaw : b_yaw b = 0; fl_shear : b_shearExp b = 0;
  fl_pc : forall i, aget (b_precurve b) i = 0; fl_ps : forall i, aget (b_presweep b) i = 0;
  fl_pct : b_precurveTip b = 0; fl_pst : b_presweepTip b = 0; fl_n : b_nSector b = 1%nat; fl_inv : b_inverse b = false;
  fl_r : increasing (b_r b); fl_len : (2 <= length (b_r b))%nat; fl_hub : 0 < b_Rhub b < nth 0 (b_r b) 0;
  fl_tip : nth (length (b_r b) - 1) (b_r b) 0 < b_Rtip b; fl_B : (1 <= b_B b)%nat; fl_R : b_rotorR b = b_Rtip b }.

Lemma flat_construct g b : construct g = Ok b -> flat_disc g -> flat b /\ b_B b = g_B g /\ b_rho b = g_rho g /\ b_chord b = g_chord g /\ b_af b = g_af g /\
  b_theta b = map (fun x => Fin (radians x)) (g_theta g) /\ b_Rhub b = g_Rhub g /\ b_Rtip b = g_Rtip g.
Proof.
  intros H (E1 & E2 & E3 & E4 & E5 & E6 & HI & Hh & Ht & HB).
  destruct (stations_inside g b H HI ltac:(lra) Ht) as (Rh & Rt & L & I & S1 & S2 & _).
  pose proof (construct_stored g b H) as S.
  assert (C : b_B b = g_B g /\ b_rho b = g_rho g /\ b_chord b = g_chord g /\ b_af b = g_af g /\ b_theta b = map (fun x => Fin (radians x)) (g_theta g) /\
     b_precone b = radians (g_precone g) /\ b_tilt b = radians (g_tilt g) /\ b_yaw b = radians (g_yaw g) /\ b_shearExp b = g_shearExp g).
  { unfold construct in H. cbv zeta in H. destruct (Nat.ltb _ _); [discriminate|]. destruct (curve_error _ _ _ _ _); [discriminate|].
    apply ok_inj in H. rewrite <- H. cbn [b_B b_rho b_chord b_af b_theta b_precone b_tilt b_yaw b_shearExp]. repeat split. }
  destruct C as (CB & Cr & Cc & Ca & Cth & C1 & C2 & C3 & C4).
  assert (Z : radians 0 = 0) by (unfold radians; field). rewrite E1, Z in C1. rewrite E2, Z in C2. rewrite E3, Z in C3. rewrite E4 in C4.
  refine (conj _ (conj CB (conj Cr (conj Cc (conj Ca (conj Cth (conj Rh Rt))))))).
  assert (Pct : b_precurveTip b = 0) by (rewrite (st_pct _ _ S), E5; reflexivity).
  assert (Pst : b_presweepTip b = 0) by (rewrite (st_pst _ _ S), E6; reflexivity).
  constructor; try assumption.
  - intros i. rewrite (st_pc _ _ S), Pct, E5. cbv zeta. rewrite zeros_last. apply nth_zeros.
  - intros i. rewrite (st_ps _ _ S), Pst, E6. cbv zeta. rewrite zeros_last. apply nth_zeros.
  - apply (proj1 (sector_rule g b H)). auto.
  - exact (st_inv _ _ S).
  - rewrite L. exact (st_len _ _ S).
  - rewrite Rh. lra.
  - rewrite Rt, L. exact S2.
  - rewrite CB. exact HB.
  - rewrite (st_R _ _ S), Pct, E1, Z, sin_0, cos_0, Rt. ring.
Qed.

(** ** Wind and geometry *)
Lemma inc_next l j : increasing l -> (S j < length l)%nat -> aget l j < aget l (S j).
Proof. intros H Hj. apply H. lia. Qed.

Lemma flat_station b i : flat b -> (i < length (b_r b))%nat -> b_Rhub b < nth i (b_r b) 0 < b_Rtip b.
Proof.
  intros F Hi. pose proof (fl_hub _ F). pose proof (fl_tip _ F). pose proof (fl_r _ F) as I. split.
  - destruct i as [|i]; [lra|]. pose proof (I 0%nat (S i) ltac:(lia)). lra.
  - destruct (Nat.eq_dec i (length (b_r b) - 1)) as [->|Hn]; [lra|]. pose proof (I i (length (b_r b) - 1)%nat ltac:(lia)). lra.
Qed.

Lemma flat_wind b U Om az i : flat b -> (i < length (b_r b))%nat -> fst (wind b U Om az) i = U /\ snd (wind b U Om az) i = Om * PI / 30 * nth i (b_r b) 0.
Proof.
  intros F Hi. unfold wind. rewrite (fl_cone _ F), (fl_tilt _ F), (fl_yaw _ F), (fl_shear _ F).
  assert (Z : radians 0 = 0) by (unfold radians; field).
  destruct (windComponents _ _ _ _ _ _ _ _ _ _ _ _) as [Vx Vy] eqn:EW.
  destruct (defineCurvature (length (b_r b)) (aget (b_r b)) (aget (b_precurve b)) (aget (b_presweep b)) 0) as [[[[x y] z] cone] s] eqn:EC.
  destruct (wind_axisymmetric _ _ _ _ _ _ _ _ _ _ _ _ _ _ _ _ i EW EC) as [H1 H2]. cbn [fst snd]. rewrite H1, H2. rewrite <- Z in EC.
  destruct (straight_blade _ _ _ _ 0 x y z cone s (fl_len _ F) ltac:(lra) (fun j Hj => inc_next _ j (fl_r _ F) Hj)
     (fun j _ => fl_pc _ F j) (fun j _ => fl_ps _ F j) EC i Hi) as (E1 & _ & E2 & _ & E3).
  rewrite E1, E2, E3, Z, sin_0, cos_0. unfold aget. split; ring.
Qed.

(** ** The torque of a blade *)
Lemma trapz_le (K : R) m f z s : (forall i, (i <= m)%nat -> f i <= K) -> (forall i, (i <= m)%nat -> 0 <= z i) ->
  (forall i, (i < m)%nat -> z i <= z (S i)) -> (forall i, (i < m)%nat -> s (S i) - s i = z (S i) - z i) ->
  trapz m (fun i => f i * z i) s <= K * (z m ^ 2 - z 0%nat ^ 2) / 2.
Proof.
  intros Hf Hz Hm Hs. induction m as [|m IH]; cbn [trapz]; [lra|].
  specialize (IH ltac:(intros; apply Hf; lia) ltac:(intros; apply Hz; lia) ltac:(intros; apply Hm; lia) ltac:(intros; apply Hs; lia)).
  rewrite Hs by lia. pose proof (Hf m ltac:(lia)) as F1. pose proof (Hf (S m) ltac:(lia)) as F2. pose proof (Hz m ltac:(lia)) as Z1. pose proof (Hz (S m) ltac:(lia)) as Z2.
  pose proof (Hm m ltac:(lia)) as M.
  assert (T1 : f m * z m <= K * z m) by (apply Rmult_le_compat_r; lra). assert (T2 : f (S m) * z (S m) <= K * z (S m)) by (apply Rmult_le_compat_r; lra).
  assert (1 / 2 * (f m * z m + f (S m) * z (S m)) * (z (S m) - z m) <= 1 / 2 * (K * z m + K * z (S m)) * (z (S m) - z m)) by (apply Rmult_le_compat_r; lra).
  lra.
Qed.

Lemma trapz_ext m f f' s s' : (forall i, (i <= m)%nat -> f i = f' i) -> (forall i, (i <= m)%nat -> s i = s' i) -> trapz m f s = trapz m f' s'.
Proof.
  intros Hf Hs. induction m as [|m IH]; [reflexivity|]. cbn [trapz]. rewrite IH by (intros; (apply Hf || apply Hs); lia).
  rewrite !Hf, !Hs by lia. reflexivity.
Qed.

Definition full_r (b : blade) : arr := pad (length (b_r b)) (b_Rhub b) (aget (b_r b)) (b_Rtip b).

Lemma full_r_inc b : flat b -> forall j, (S j < length (b_r b) + 2)%nat -> full_r b j < full_r b (S j).
Proof.
  intros F j Hj. set (n := length (b_r b)) in *. assert (HL : (2 <= n)%nat) by exact (fl_len _ F).
  assert (HR : forall i, (i <= n + 1)%nat -> full_r b i = if Nat.eqb i 0 then b_Rhub b else if Nat.eqb i (n + 1) then b_Rtip b else nth (i - 1) (b_r b) 0) by reflexivity.
  rewrite !HR by lia. destruct (Nat.eqb_spec (S j) 0); [lia|]. pose proof (fl_hub _ F). pose proof (fl_tip _ F).
  destruct (Nat.eqb_spec j 0) as [->|Hj0].
  - destruct (Nat.eqb_spec 1 (n + 1)); [lia|]. cbn [Nat.sub]. lra.
  - destruct (Nat.eqb_spec j (n + 1)); [lia|]. destruct (Nat.eqb_spec (S j) (n + 1)) as [E|E].
    + replace (j - 1)%nat with (n - 1)%nat by lia. exact (fl_tip _ F).
    + replace (S j - 1)%nat with (S (j - 1)) by lia. apply (fl_r _ F). fold n. lia.
Qed.

Lemma flat_moment b Np Tp : flat b ->
  CSystemSpec.c1 (blade_moment b Np Tp) = trapz (length (b_r b) + 1) (fun i => pad (length (b_r b)) 0 (aget Tp) 0 i * full_r b i) (fun i => full_r b i - full_r b 0%nat).
Proof.
  intros F. unfold blade_moment, thrustTorque. rewrite (fl_cone _ F), (fl_pct _ F), (fl_pst _ F).
  fold (full_r b). set (n := length (b_r b)) in *. set (rf := full_r b) in *.
  assert (Z : radians 0 = 0) by (unfold radians; field).
  destruct (defineCurvature (n + 2) rf (pad n 0 (aget (b_precurve b)) 0) (pad n 0 (aget (b_presweep b)) 0) 0) as [[[[x y] z] cone] s] eqn:EC.
  unfold CSystemSpec.c1. cbn [fst snd].
  assert (HZ : forall f i, (forall j, f j = 0) -> pad n 0 f 0 i = 0).
  { intros f i H. unfold pad. destruct (Nat.eqb i 0); [reflexivity|]. destruct (Nat.eqb i (n + 1)); [reflexivity|apply H]. }
  set (pc := pad n 0 (aget (b_precurve b)) 0) in *. set (ps := pad n 0 (aget (b_presweep b)) 0) in *.
  assert (EC' : defineCurvature (n + 2) rf pc ps (radians 0) = (x, y, z, cone, s)) by (rewrite Z; exact EC).
  assert (ST := straight_blade (n + 2) rf pc ps 0 x y z cone s ltac:(lia) ltac:(lra) (full_r_inc b F) (fun j _ => HZ _ j (fl_pc _ F)) (fun j _ => HZ _ j (fl_ps _ F)) EC').
  apply trapz_ext.
  - intros i Hi. destruct (ST i ltac:(lia)) as (_ & _ & -> & _). rewrite Z, cos_0, Rmult_1_r. reflexivity.
  - intros i Hi. destruct (ST i ltac:(lia)) as (_ & -> & _). reflexivity.
Qed.

Lemma flat_torque b Np Tp K : flat b -> 0 <= K -> (forall i, (i < length (b_r b))%nat -> nth i Tp 0 <= K) ->
  CSystemSpec.c1 (blade_moment b Np Tp) <= K * (b_Rtip b ^ 2 - b_Rhub b ^ 2) / 2.
Proof.
  intros F HK HT. rewrite flat_moment by exact F. set (n := length (b_r b)) in *. pose proof (full_r_inc b F) as HM. fold n in HM.
  replace (b_Rtip b) with (full_r b (n + 1)%nat).
  2:{ unfold full_r, pad. destruct (Nat.eqb_spec (n + 1) 0); [lia|]. fold n. rewrite Nat.eqb_refl. reflexivity. }
  replace (b_Rhub b) with (full_r b 0%nat) by reflexivity. set (rf := full_r b) in *.
  assert (H0 : 0 < rf 0%nat) by (unfold rf; cbn; pose proof (fl_hub _ F); lra).
  apply trapz_le.
  - intros i Hi. unfold pad. destruct (Nat.eqb_spec i 0); [exact HK|]. destruct (Nat.eqb_spec i (n + 1)); [exact HK|]. apply HT. lia.
  - intros i Hi. induction i as [|i IH]; [lra|]. pose proof (HM i ltac:(lia)). specialize (IH ltac:(lia)). lra.
  - intros i Hi. left. apply HM. lia.
  - intros i Hi. ring.
Qed.

(** ** The rotor *)
Lemma flat_load npi bq b U Om p ls i l Tp : 3 < npi < PI -> root_inside bq -> finds_zeros bq -> flat b ->
  0 <= b_rho b -> (forall c, In c (b_chord b) -> 0 <= c) -> Forall drags (b_af b) -> 0 < U -> 0 < Om ->
  section_loads npi bq b U Om p 0 = Ok ls -> nth_error ls i = Some l -> (forall x, In x (b_theta b) -> exists t, x = Fin t) -> rep (o_Tp l) Tp ->
  (forall t al, nth_error (b_theta b) i = Some (Fin t) -> rep (o_alpha l) al -> radians al + t + radians p <= npi / 2) ->
  INR (b_B b) * (Om * PI / 30) * Tp <= betz * (1 / 2 * b_rho b * U ^ 3) * (2 * PI).
Proof.
  intros Hn Hb Hz F Hrho Hch Haf HU HO SL El Qt QT Hal. pose proof PI_RGT_0 as HPI.
  unfold section_loads in SL. apply bind_ok in SL. destruct SL as ((b' & ls') & D & SL). apply ok_inj in SL. cbn [snd] in SL. subst ls'.
  unfold distributedAeroLoads in D. destruct (negb (shapes_ok b)); [discriminate|]. cbv zeta in D.
  apply bind_ok in D. destruct D as (ys & EM & D). apply ok_inj in D. apply (f_equal snd) in D. cbn [snd] in D. subst ls.
  rewrite nth_error_map in El. destruct (nth_error ys i) as [(th & l')|] eqn:EY; [|discriminate El]. cbn in El. injection El; intros ->. clear El.
  assert (Hi : (i < length (b_r b))%nat).
  { pose proof (mapM_length _ _ _ EM) as X. rewrite seq_length in X. rewrite <- X. apply nth_error_Some. rewrite EY. discriminate. }
  pose proof (mapM_nth _ _ _ 0%nat (Fin 0, zero_load) EM i ltac:(rewrite seq_length; lia)) as S.
  rewrite seq_nth in S by lia. cbn [Nat.add] in S. rewrite (nth_of_error _ _ _ _ EY) in S.
  unfold station_i in S. cbv zeta in S. rewrite (fl_inv _ F) in S.
  replace (reqb Om 0) with false in S by (symmetry; apply reqb_false; lra). cbn [negb] in S.
  apply bind_ok in S. destruct S as (r & F1 & S). apply bind_ok in S. destruct S as (c & F2 & S).
  apply bind_ok in S. destruct S as (af & F3 & S). apply bind_ok in S. destruct S as (th' & F4 & S).
  apply bind_ok in S. destruct S as (l0 & ES & S). apply ok_inj in S. apply pair_equal_spec in S. destruct S as (_ & ->).
  assert (G : forall X (q : list X) x, pyget q i = Ok x -> nth_error q i = Some x).
  { intros X q x E. unfold pyget in E. destruct (nth_error q i); [apply ok_inj in E; congruence|discriminate]. }
  apply G in F1, F2, F3, F4. destruct (Qt _ (nth_error_In _ _ F4)) as (t & ->).
  destruct (flat_wind b U Om (radians 0) i F Hi) as (W1 & W2). pose proof (flat_station b i F Hi) as Hr. pose proof (fl_hub _ F) as Hh.
  rewrite (nth_of_error _ _ _ 0 F1) in W2, Hr.
  assert (HVy : 0 < Om * PI / 30 * r) by (apply Rmult_lt_0_compat; [|lra]; apply Rmult_lt_0_compat; [apply Rmult_lt_0_compat|]; lra).
  rewrite W1, W2 in ES.
  assert (HVr : 0 < b_Rhub b < r) by lra. assert (HTr : r < b_Rtip b) by lra.
  pose proof (station_power npi bq (rotor_of b (radians p)) (mkSect (Fin r) (Fin c) (Fin t) af (Fin U) (Fin (Om * PI / 30 * r))) l r c t (radians p) U (Om * PI / 30 * r) (b_Rhub b) (b_Rtip b) (b_rho b) Tp Hn Hb Hz eq_refl eq_refl (rep_Fin t) eq_refl eq_refl
    eq_refl eq_refl eq_refl eq_refl (fl_B _ F) HVr HTr HU HVy (Hch c (nth_error_In _ _ F2)) Hrho
    (proj1 (Forall_forall _ _) Haf af (nth_error_In _ _ F3)) ES QT (fun al => Hal t al F4)) as SP.
  cbn [rotor_of rt_B] in SP. apply Rmult_le_reg_r with r; [lra|]. lra.
Qed.

Lemma outputs_power npi bq b conds b' outs w i y U Om p :
  evaluate npi bq b conds = Ok (b', outs, w) -> nth_error outs i = Some (Some y) -> nth_error conds i = Some (U, Om, p) -> y_P y = t_Q (y_tot y) * (Om * PI / 30).
Proof.
  intros E Ey Ec. unfold evaluate in E. apply bind_ok in E. destruct E as (((c & ts) & W) & H1 & H2).
  destruct W; [|discriminate]. apply ok_inj in H2. apply (f_equal (fun x => snd (fst x))) in H2. cbn [fst snd] in H2. subst outs.
  assert (G : exists t0, y = finish b U Om t0).
  { clear H1. revert ts i Ey Ec. induction conds as [|[[U' Om'] p'] conds IH]; intros ts i Ey Ec; [destruct i; discriminate|].
    destruct ts as [|t' ts]; [destruct i; discriminate|]. cbn [combine map] in Ey.
    destruct i as [|i]; cbn [nth_error] in Ey, Ec; [|eapply IH; eassumption].
    injection Ec; intros; subst. destruct t' as [t'|]; [|discriminate]. injection Ey; intros; subst. eauto. }
  destruct G as (t0 & ->). unfold finish. cbn [y_P y_tot]. field.
Qed.

Lemma Forall2_nth_r {X Y} (P : X -> Y -> Prop) l m i d y : Forall2 P l m -> (i < length m)%nat -> nth i m d = y -> exists x, nth_error l i = Some x /\ P x y.
Proof.
  intros H. revert i. induction H as [|x z l m H1 H2 IH]; intros i Hi E; [cbn in Hi; lia|].
  destruct i as [|i]; cbn in *; [subst; eauto|]. apply IH; auto. lia.
Qed.

(** Power of a flat rotor from its section loads. *)
Lemma flat_power npi bq b conds b' outs w i U Om p y : flat b ->
  evaluate npi bq b conds = Ok (b', outs, w) -> nth_error conds i = Some (U, Om, p) -> nth_error outs i = Some (Some y) ->
  exists ls Np Tp, section_loads npi bq b U Om p 0 = Ok ls /\ Forall2 (fun l v => fval (o_Tp l) = Some v) ls Tp /\
    y_P y = INR (b_B b) * (Om * PI / 30) * CSystemSpec.c1 (blade_moment b Np Tp).
Proof.
  intros F HE Ec Ey.
  destruct (azimuthal_mean npi bq b conds b' outs w i U Om p y (fl_inv _ F) ltac:(rewrite (fl_n _ F); lia) HE Ec Ey) as (ls & Np & Tp & HL & HT).
  cbv zeta in HL, HT. rewrite (fl_n _ F) in HL, HT. destruct HT as (_ & _ & _ & HQ & _).
  destruct (HL 0%nat ltac:(lia)) as (SL & _ & QT). replace (INR 0 * 360 / INR 1) with 0 in SL by (cbn; field).
  exists (ls 0%nat), (Np 0%nat), (Tp 0%nat). split; [exact SL|]. split; [exact QT|].
  cbn [SimilaritySpec.total] in HQ. rewrite Rplus_0_l in HQ. change (INR 1) with 1 in HQ.
  rewrite (outputs_power _ _ _ _ _ _ _ _ _ _ _ _ HE Ey Ec), HQ, hub_frame. unfold CSystemSpec.c1. cbn [fst]. field.
Qed.

Lemma betz_power : forall npi bq g b conds b' outs w i U Om p y, 3 < npi < PI -> root_inside bq -> finds_zeros bq ->
  construct g = Ok b -> flat_disc g -> 0 <= g_rho g -> (forall c, In c (g_chord g) -> 0 <= c) -> Forall drags (g_af g) ->
  evaluate npi bq b conds = Ok (b', outs, w) -> nth_error conds i = Some (U, Om, p) -> nth_error outs i = Some (Some y) -> 0 < U -> 0 < Om ->
  (forall ls j l th al, section_loads npi bq b U Om p 0 = Ok ls -> nth_error ls j = Some l -> nth_error (g_theta g) j = Some th ->
     rep (o_alpha l) al -> radians (al + th + p) <= npi / 2) ->
  y_P y <= betz * wind_power (g_rho g) U (PI * (g_Rtip g ^ 2 - g_Rhub g ^ 2)).
Proof.
  intros npi bq g b conds b' outs w i U Om p y Hn Hb Hz HC HF Hrho Hch Haf HE Ec Ey HU HO Hal.
  destruct (flat_construct g b HC HF) as (F & EB & Er & Ech & Eaf & Eth & Eh & Et). pose proof PI_RGT_0 as HPI.
  destruct (flat_power _ _ _ _ _ _ _ _ _ _ _ _ F HE Ec Ey) as (ls & Np & Tp & SL & QT & ->).
  assert (HB : 1 <= INR (b_B b)) by (apply (le_INR 1); exact (fl_B _ F)).
  assert (HV : 0 < U ^ 3) by (apply pow_lt; lra).
  assert (Hw : 0 < Om * PI / 30) by (apply Rmult_lt_0_compat; [apply Rmult_lt_0_compat|]; lra).
  set (om := Om * PI / 30) in *. set (K := betz * (1 / 2 * b_rho b * U ^ 3) * (2 * PI) / (INR (b_B b) * om)).
  assert (HBo : 0 < INR (b_B b) * om) by (apply Rmult_lt_0_compat; lra).
  assert (HK : 0 <= K).
  { unfold K, Rdiv. apply Rmult_le_pos; [|left; apply Rinv_0_lt_compat; exact HBo]. unfold betz. rewrite Er.
    apply Rmult_le_pos; [|lra]. apply Rmult_le_pos; [lra|]. apply Rmult_le_pos; lra. }
  assert (FT : CSystemSpec.c1 (blade_moment b Np Tp) <= K * (b_Rtip b ^ 2 - b_Rhub b ^ 2) / 2).
  { apply flat_torque; [exact F|exact HK|]. intros j Hj.
    destruct (le_lt_dec (length Tp) j) as [Hl|Hl]; [rewrite nth_overflow by exact Hl; exact HK|].
    destruct (Forall2_nth_r _ _ _ j 0 _ QT Hl eq_refl) as (l & El & Ql).
    assert (FL := flat_load npi bq b U Om p ls j l (nth j Tp 0) Hn Hb Hz F ltac:(rewrite Er; exact Hrho) ltac:(rewrite Ech; exact Hch)
      ltac:(rewrite Eaf; exact Haf) HU HO SL El). 
    assert (Qt : forall x, In x (b_theta b) -> exists t, x = Fin t).
    { rewrite Eth. intros x Hx. apply in_map_iff in Hx. destruct Hx as (th & <- & _). eauto. }
    specialize (FL Qt Ql).
    assert (FL' : INR (b_B b) * om * nth j Tp 0 <= betz * (1 / 2 * b_rho b * U ^ 3) * (2 * PI)).
    { apply FL. intros t al Et' Qal. rewrite Eth, nth_error_map in Et'. destruct (nth_error (g_theta g) j) as [th|] eqn:Hth; [|discriminate Et']. cbn in Et'. injection Et'; intros <-.
      replace (radians al + radians th + radians p) with (radians (al + th + p)) by (unfold radians; field). eapply Hal; eassumption. }
    unfold K. apply Rmult_le_reg_l with (INR (b_B b) * om); [exact HBo|]. 
    replace (INR (b_B b) * om * (betz * (1 / 2 * b_rho b * U ^ 3) * (2 * PI) / (INR (b_B b) * om))) with (betz * (1 / 2 * b_rho b * U ^ 3) * (2 * PI)) by (field; lra).
    exact FL'. }
  apply (Rmult_le_compat_l (INR (b_B b) * om)) in FT; [|lra].
  replace (INR (b_B b) * om * (K * (b_Rtip b ^ 2 - b_Rhub b ^ 2) / 2)) with (betz * wind_power (g_rho g) U (PI * (g_Rtip g ^ 2 - g_Rhub g ^ 2))) in FT.
  2:{ unfold K, wind_power. rewrite Er, Eh, Et. field. lra. }
  eapply Rle_trans; [|exact FT]. right. unfold CSystemSpec.c1. field.
Qed.

(** ** The power coefficient *)
Lemma betz_coefficient : forall npi bq g b conds b' outs w i U Om p y, 3 < npi < PI -> root_inside bq -> finds_zeros bq ->
  construct g = Ok b -> flat_disc g -> 0 < g_rho g -> (forall c, In c (g_chord g) -> 0 <= c) -> Forall drags (g_af g) ->
  evaluate npi bq b conds = Ok (b', outs, w) -> nth_error conds i = Some (U, Om, p) -> nth_error outs i = Some (Some y) ->
  0 < U -> 0 < Om -> 0 < g_Rtip g ->
  (forall ls j l th al, section_loads npi bq b U Om p 0 = Ok ls -> nth_error ls j = Some l -> nth_error (g_theta g) j = Some th ->
     rep (o_alpha l) al -> radians (al + th + p) <= npi / 2) ->
  y_CP y <= betz * (1 - (g_Rhub g / g_Rtip g) ^ 2).
Proof.
  intros npi bq g b conds b' outs w i U Om p y Hn Hb Hz HC HD Hr Hc Hdr HE Ec Ey HU HO HR Hang.
  pose proof (betz_power npi bq g b conds b' outs w i U Om p y Hn Hb Hz HC HD ltac:(lra) Hc Hdr HE Ec Ey HU HO Hang) as HP.
  destruct (constructed_radius g b HC) as (Er & Erho). destruct HD as (D1 & _ & _ & _ & D2 & _). assert (Z : radians 0 = 0) by (unfold radians; field). rewrite D1, D2, Z, cos_0, sin_0 in Er.
  assert (Er' : b_rotorR b = g_Rtip g) by lra.
  assert (N1 : b_rho b <> 0) by lra. assert (N2 : U <> 0) by lra. assert (N3 : b_rotorR b <> 0) by lra.
  destruct (outputs_consistent npi bq b conds b' outs w i y U Om p HE Ey Ec N1 N2 N3) as (_ & EP & _).
  rewrite Er', Erho in EP. rewrite <- EP in HP. clear EP. pose proof PI_RGT_0.
  assert (HK : 0 < g_rho g * U ^ 2 / 2 * (PI * g_Rtip g ^ 2) * U).
  { pose proof (pow_lt U 2 HU). pose proof (pow_lt _ 2 HR). pose proof (Rmult_lt_0_compat _ _ Hr H0) as M1. pose proof (Rmult_lt_0_compat _ _ PI_RGT_0 H1) as M2.
    apply Rmult_lt_0_compat; [|exact HU]. apply Rmult_lt_0_compat; [|exact M2]. lra. }
  apply Rmult_le_reg_r with (g_rho g * U ^ 2 / 2 * (PI * g_Rtip g ^ 2) * U); [exact HK|].
  eapply Rle_trans; [exact HP|]. apply Req_le. unfold wind_power. field. lra.
Qed.
