(** Thrust and power of a flat rotor (C103). *)
From Coquelicot Require Import Coquelicot.
From Coq Require Import Reals Bool Arith List Lra Lia Psatz.
From Verif Require Import Prelim Num CSystemSpec Interp Bem BemGeomSpec BemGeomProofs Blade IndSpec IndProofs FlProofs BladeSpec StationProofs StationLoads InterpSpec ConstructProofs BladeProofs
  SectorProofs SimilaritySpec SimilarityProofs SymmetryProofs BladeDvProofs InverseForward PolarProofs TwistProofs BetzSpec BetzProofs BetzStation BetzRotor ThrustProofs ThrustStation ThrustSpec.
Import ListNotations.
Open Scope R_scope.

Lemma flat_section npi bq b U Om p ls i l : flat b -> 0 < Om -> section_loads npi bq b U Om p 0 = Ok ls -> nth_error ls i = Some l ->
  (i < length (b_r b))%nat /\ exists r c af th, nth_error (b_r b) i = Some r /\ In c (b_chord b) /\ In af (b_af b) /\ nth_error (b_theta b) i = Some th /\
    b_Rhub b < r < b_Rtip b /\ solve_station npi bq (rotor_of b (radians p)) true (mkSect (Fin r) (Fin c) th af (Fin U) (Fin (Om * PI / 30 * r))) = Ok l.
Proof.
  intros F HO SL El.
  unfold section_loads in SL. apply bind_ok in SL. destruct SL as ((b' & ls') & D & SL). apply ok_inj in SL. cbn [snd] in SL. subst ls'.
  unfold distributedAeroLoads in D. destruct (negb (shapes_ok b)); [discriminate|]. cbv zeta in D.
  apply bind_ok in D. destruct D as (ys & EM & D). apply ok_inj in D. apply (f_equal snd) in D. cbn [snd] in D. subst ls.
  rewrite nth_error_map in El. destruct (nth_error ys i) as [(th & l')|] eqn:EY; [|discriminate El]. cbn in El. injection El; intros ->. clear El.
  assert (Hi : (i < length (b_r b))%nat).
  { pose proof (mapM_length _ _ _ EM) as X. rewrite seq_length in X. rewrite <- X. apply nth_error_Some. rewrite EY. discriminate. }
  split; [exact Hi|].
  pose proof (mapM_nth _ _ _ 0%nat (Fin 0, zero_load) EM i ltac:(rewrite seq_length; lia)) as S.
  rewrite seq_nth in S by lia. cbn [Nat.add] in S. rewrite (nth_of_error _ _ _ _ EY) in S.
  unfold station_i in S. cbv zeta in S. rewrite (fl_inv _ F) in S.
  replace (reqb Om 0) with false in S by (symmetry; apply reqb_false; lra). cbn [negb] in S.
  apply bind_ok in S. destruct S as (r & F1 & S). apply bind_ok in S. destruct S as (c & F2 & S).
  apply bind_ok in S. destruct S as (af & F3 & S). apply bind_ok in S. destruct S as (th' & F4 & S).
  apply bind_ok in S. destruct S as (l0 & ES & S). apply ok_inj in S. apply pair_equal_spec in S. destruct S as (_ & ->).
  assert (G : forall X (q : list X) x, pyget q i = Ok x -> nth_error q i = Some x).
  { intros X q x E. unfold pyget in E. destruct (nth_error q i); [apply ok_inj in E; congruence|discriminate]. }
  apply G in F1, F2, F3, F4.
  destruct (flat_wind b U Om (radians 0) i F Hi) as (W1 & W2). pose proof (flat_station b i F Hi) as Hr.
  rewrite (nth_of_error _ _ _ 0 F1) in W2, Hr. rewrite W1, W2 in ES.
  exists r, c, af, th'. exact (conj F1 (conj (nth_error_In _ _ F2) (conj (nth_error_In _ _ F3) (conj F4 (conj Hr ES))))).
Qed.

(** ** Force of a blade *)
Lemma flat_force b Np Tp : flat b ->
  CSystemSpec.c1 (blade_force b Np Tp) = trapz (length (b_r b) + 1) (pad (length (b_r b)) 0 (aget Np) 0) (fun i => full_r b i - full_r b 0%nat).
Proof.
  intros F. unfold blade_force, thrustTorque. rewrite (fl_cone _ F), (fl_pct _ F), (fl_pst _ F).
  fold (full_r b). set (n := length (b_r b)) in *. set (rf := full_r b) in *.
  assert (Z : radians 0 = 0) by (unfold radians; field).
  destruct (defineCurvature (n + 2) rf (pad n 0 (aget (b_precurve b)) 0) (pad n 0 (aget (b_presweep b)) 0) 0) as [[[[x y] z] cone] s] eqn:EC.
  unfold CSystemSpec.c1. cbn [fst snd].
  assert (HZ : forall f i, (forall j, f j = 0) -> pad n 0 f 0 i = 0).
  { intros f i H. unfold pad. destruct (Nat.eqb i 0); [reflexivity|]. destruct (Nat.eqb i (n + 1)); [reflexivity|apply H]. }
  set (pc := pad n 0 (aget (b_precurve b)) 0) in *. set (ps := pad n 0 (aget (b_presweep b)) 0) in *.
  assert (EC' : defineCurvature (n + 2) rf pc ps (radians 0) = (x, y, z, cone, s)) by (rewrite Z; exact EC).
  assert (ST := straight_blade (n + 2) rf pc ps 0 x y z cone s ltac:(lia) ltac:(lra) (full_r_inc b F) (fun j _ => HZ _ j (fl_pc _ F)) (fun j _ => HZ _ j (fl_ps _ F)) EC').
  apply trapz_ext.
  - intros i Hi. destruct (ST i ltac:(lia)) as (-> & _). rewrite Z, cos_0, Rmult_1_r. reflexivity.
  - intros i Hi. destruct (ST i ltac:(lia)) as (_ & -> & _). reflexivity.
Qed.

Lemma trapz_mono m f g s : (forall i, (i <= m)%nat -> f i <= g i) -> (forall i, (i < m)%nat -> s i <= s (S i)) -> trapz m f s <= trapz m g s.
Proof.
  intros Hf Hs. induction m as [|m IH]; cbn [trapz]; [lra|].
  specialize (IH ltac:(intros; apply Hf; lia) ltac:(intros; apply Hs; lia)).
  pose proof (Hf m ltac:(lia)). pose proof (Hf (S m) ltac:(lia)). pose proof (Hs m ltac:(lia)).
  assert (0 <= (g m + g (S m) - (f m + f (S m))) * (s (S m) - s m)) by (apply Rmult_le_pos; lra). nra.
Qed.
Lemma trapz_scale c m f s : trapz m (fun i => c * f i) s = c * trapz m f s.
Proof. induction m as [|m IH]; cbn [trapz]; [ring|]. rewrite IH. field. Qed.

Lemma pad_nth n f i : (i <= n + 1)%nat -> (pad n 0 f 0 i = 0 \/ exists j, (j < n)%nat /\ i = S j /\ pad n 0 f 0 i = f j).
Proof.
  intros Hi. unfold pad. destruct (Nat.eqb_spec i 0); [auto|]. destruct (Nat.eqb_spec i (n + 1)); [auto|].
  right. exists (i - 1)%nat. repeat split; lia.
Qed.
Lemma full_nth b j : (j < length (b_r b))%nat -> full_r b (S j) = nth j (b_r b) 0.
Proof. intros H. unfold full_r, pad. destruct (Nat.eqb_spec (S j) 0); [lia|]. destruct (Nat.eqb_spec (S j) (length (b_r b) + 1)); [lia|]. cbn [Nat.sub]. rewrite Nat.sub_0_r. reflexivity. Qed.

Section Blade.
Variables (b : blade) (Np Tp : list R).
Hypothesis F : flat b.
Let s := fun i => full_r b i - full_r b 0%nat.
Lemma s_step i : (i < length (b_r b) + 1)%nat -> s i <= s (S i).
Proof. intros H. unfold s. pose proof (full_r_inc b F i ltac:(lia)). lra. Qed.
Lemma full_pos i : (i <= length (b_r b) + 1)%nat -> 0 < full_r b i.
Proof.
  intros H. induction i as [|i IH]; [cbn; pose proof (fl_hub _ F); lra|]. pose proof (full_r_inc b F i ltac:(lia)). specialize (IH ltac:(lia)). lra.
Qed.

Lemma blade_energy om U : (forall i, (i < length (b_r b))%nat -> om * nth i (b_r b) 0 * nth i Tp 0 <= U * nth i Np 0) ->
  om * CSystemSpec.c1 (blade_moment b Np Tp) <= U * CSystemSpec.c1 (blade_force b Np Tp).
Proof.
  intros H. rewrite flat_moment, flat_force by exact F. rewrite <- !trapz_scale. apply trapz_mono; [|exact s_step].
  intros i Hi. destruct (Nat.eq_dec i 0) as [->|N0]; [cbn; lra|]. destruct (Nat.eq_dec i (length (b_r b) + 1)) as [->|N1].
  - unfold pad. rewrite Nat.eqb_refl. destruct (Nat.eqb_spec (length (b_r b) + 1) 0); lra.
  - destruct i as [|i]; [lia|]. rewrite full_nth by lia. unfold pad. destruct (Nat.eqb_spec (S i) 0); [lia|]. destruct (Nat.eqb_spec (S i) (length (b_r b) + 1)); [lia|].
    cbn [Nat.sub]. rewrite Nat.sub_0_r. specialize (H i ltac:(lia)). unfold aget. lra.
Qed.

Lemma blade_thrust K : 0 <= K -> (forall i, (i < length (b_r b))%nat -> nth i Np 0 <= K * nth i (b_r b) 0) ->
  CSystemSpec.c1 (blade_force b Np Tp) <= K * (b_Rtip b ^ 2 - b_Rhub b ^ 2) / 2.
Proof.
  intros HK H. rewrite flat_force by exact F.
  apply Rle_trans with (trapz (length (b_r b) + 1) (fun i => K * full_r b i) s).
  - apply trapz_mono; [|exact s_step]. intros i Hi. pose proof (full_pos i Hi) as P. assert (0 <= K * full_r b i) by (apply Rmult_le_pos; lra).
    destruct (Nat.eq_dec i 0) as [->|N0]; [exact H0|]. destruct (Nat.eq_dec i (length (b_r b) + 1)) as [->|N1].
    + unfold pad. rewrite Nat.eqb_refl. destruct (Nat.eqb_spec (length (b_r b) + 1) 0); exact H0.
    + destruct i as [|i]; [lia|]. rewrite full_nth by lia. unfold pad. destruct (Nat.eqb_spec (S i) 0); [lia|]. destruct (Nat.eqb_spec (S i) (length (b_r b) + 1)); [lia|].
      cbn [Nat.sub]. rewrite Nat.sub_0_r. apply H. lia.
  - replace (b_Rtip b) with (full_r b (length (b_r b) + 1)%nat).
    2:{ unfold full_r, pad. destruct (Nat.eqb_spec (length (b_r b) + 1) 0); [lia|]. rewrite Nat.eqb_refl. reflexivity. }
    replace (b_Rhub b) with (full_r b 0%nat) by reflexivity.
    apply (trapz_le K (length (b_r b) + 1) (fun _ => K) (full_r b) s).
    + intros; lra.
    + intros i Hi. left. apply full_pos. exact Hi.
    + intros i Hi. left. apply (full_r_inc b F). lia.
    + intros i Hi. unfold s. ring.
Qed.
End Blade.

(** ** The rotor *)
Lemma flat_totals npi bq b conds b' outs w i U Om p y : flat b ->
  evaluate npi bq b conds = Ok (b', outs, w) -> nth_error conds i = Some (U, Om, p) -> nth_error outs i = Some (Some y) ->
  exists ls Np Tp, section_loads npi bq b U Om p 0 = Ok ls /\ Forall2 (fun l v => fval (o_Np l) = Some v) ls Np /\ Forall2 (fun l v => fval (o_Tp l) = Some v) ls Tp /\
    y_P y = INR (b_B b) * (Om * PI / 30 * CSystemSpec.c1 (blade_moment b Np Tp)) /\ t_T (y_tot y) = INR (b_B b) * CSystemSpec.c1 (blade_force b Np Tp).
Proof.
  intros F HE Ec Ey.
  destruct (azimuthal_mean npi bq b conds b' outs w i U Om p y (fl_inv _ F) ltac:(rewrite (fl_n _ F); lia) HE Ec Ey) as (ls & Np & Tp & HL & HT).
  cbv zeta in HL, HT. rewrite (fl_n _ F) in HL, HT. destruct HT as (HT & _ & _ & HQ & _).
  destruct (HL 0%nat ltac:(lia)) as (SL & QN & QT). replace (INR 0 * 360 / INR 1) with 0 in SL by (cbn; field).
  exists (ls 0%nat), (Np 0%nat), (Tp 0%nat). refine (conj SL (conj QN (conj QT _))).
  cbn [SimilaritySpec.total] in HQ, HT. rewrite Rplus_0_l in HQ, HT. change (INR 1) with 1 in HQ, HT.
  rewrite (outputs_power _ _ _ _ _ _ _ _ _ _ _ _ HE Ey Ec), HQ, HT, !hub_frame. unfold CSystemSpec.c1. cbn [fst]. split; field.
Qed.

Lemma Forall2_len {X Y} (P : X -> Y -> Prop) l m : Forall2 P l m -> length l = length m.
Proof. intros H. induction H; cbn; congruence. Qed.

Section Rotor.
Variables (npi : R) (bq : rootfinder fl) (g : args) (b : blade) (conds : list (R * R * R)) (b' : blade) (outs : list (option outputs)) (w : list fl)
  (i : nat) (U Om p : R) (y : outputs).
Hypothesis Hn : 3 < npi < PI.
Hypothesis Hb : root_inside bq.
Hypothesis Hz : finds_zeros bq.
Hypothesis HC : construct g = Ok b.
Hypothesis HF : flat_disc g.
Hypothesis Hrho : 0 <= g_rho g.
Hypothesis Hch : forall c, In c (g_chord g) -> 0 <= c.
Hypothesis Haf : Forall drags (g_af g).
Hypothesis HE : evaluate npi bq b conds = Ok (b', outs, w).
Hypothesis Ec : nth_error conds i = Some (U, Om, p).
Hypothesis Ey : nth_error outs i = Some (Some y).
Hypothesis HU : 0 < U.
Hypothesis HO : 0 < Om.
Hypothesis Hal : forward_inflow npi bq g b U Om p.

Lemma rotor_bounds : y_P y <= t_T (y_tot y) * U /\
  (useCd (g_opts g) = true -> t_T (y_tot y) <= 2 * (1 / 2 * g_rho g * U ^ 2) * (PI * (g_Rtip g ^ 2 - g_Rhub g ^ 2))).
Proof.
  destruct (flat_construct g b HC HF) as (F & EB & Er & Ech & Eaf & Eth & Eh & Et). pose proof PI_RGT_0 as HPI.
  assert (Eo : b_opts b = g_opts g).
  { unfold construct in HC. cbv zeta in HC. destruct (Nat.ltb _ _); [discriminate|]. destruct (curve_error _ _ _ _ _); [discriminate|].
    apply ok_inj in HC. rewrite <- HC. reflexivity. }
  destruct (flat_totals _ _ _ _ _ _ _ _ _ _ _ _ F HE Ec Ey) as (ls & Np & Tp & SL & QN & QT & EP & ET).
  assert (HB : 1 <= INR (b_B b)) by (apply (le_INR 1); exact (fl_B _ F)).
  assert (LN : length ls = length Np) by (eapply Forall2_len; exact QN). assert (LT : length ls = length Tp) by (eapply Forall2_len; exact QT).
  assert (ST : forall j, (j < length (b_r b))%nat -> Om * PI / 30 * nth j (b_r b) 0 * nth j Tp 0 <= U * nth j Np 0 /\
    (useCd (g_opts g) = true -> INR (b_B b) * nth j Np 0 <= 2 * (1 / 2 * b_rho b * U ^ 2) * (2 * PI * nth j (b_r b) 0))).
  { intros j Hj. pose proof (flat_station b j F Hj) as Hr. pose proof (fl_hub _ F) as Hh.
    destruct (le_lt_dec (length Np) j) as [Hl|Hl].
    { rewrite !nth_overflow with (n := j) (l := Np), !nth_overflow with (n := j) (l := Tp) by lia. split; [lra|]. intros _.
      rewrite Rmult_0_r. apply Rmult_le_pos; [|apply Rmult_le_pos; lra]. apply Rmult_le_pos; [lra|]. rewrite Er. apply Rmult_le_pos; [lra|apply pow2_ge_0]. }
    destruct (Forall2_nth_r _ _ _ j 0 _ QN Hl eq_refl) as (l & El & Ql).
    assert (Hl2 : (j < length Tp)%nat) by lia.
    destruct (Forall2_nth_r _ _ _ j 0 _ QT Hl2 eq_refl) as (l' & El' & Ql'). rewrite El in El'. injection El'; intros <-. clear El'.
    destruct (flat_section npi bq b U Om p ls j l F HO SL El) as (_ & r & c & af & th & E1 & E2 & E3 & E4 & Hr' & ES).
    rewrite (nth_of_error _ _ _ 0 E1).
    pose proof E4 as E4'. rewrite Eth, nth_error_map in E4'. destruct (nth_error (g_theta g) j) as [th0|] eqn:Hth; [|discriminate E4']. cbn in E4'. injection E4'; intros <-. clear E4'.
    assert (HVy : 0 < Om * PI / 30 * r) by (apply Rmult_lt_0_compat; [|lra]; apply Rmult_lt_0_compat; [apply Rmult_lt_0_compat|]; lra).
    assert (HVr : 0 < b_Rhub b < r) by lra. assert (HTr : r < b_Rtip b) by lra. assert (Hrho' : 0 <= b_rho b) by (rewrite Er; exact Hrho).
    assert (Hc : 0 <= c) by (apply Hch; rewrite <- Ech; exact E2).
    assert (Hd : drags af) by (apply (proj1 (Forall_forall _ _) Haf); rewrite <- Eaf; exact E3).
    assert (HA : forall al, rep (o_alpha l) al -> ~ (nth j Np 0 = 0 /\ nth j Tp 0 = 0) -> 0 < radians al + radians th0 + radians p <= npi / 2).
    { intros al Qa NZ. replace (radians al + radians th0 + radians p) with (radians (al + th0 + p)) by (unfold radians; field).
      apply (Hal ls j l th0 al SL El Hth Qa). intros [Z1 Z2]. apply NZ. split; [exact (rep_fun _ _ _ Ql Z1)|exact (rep_fun _ _ _ Ql' Z2)]. }
    rewrite <- Eo.
    exact (station_thrust npi bq (rotor_of b (radians p)) (mkSect (Fin r) (Fin c) (Fin (radians th0)) af (Fin U) (Fin (Om * PI / 30 * r))) l r c (radians th0) (radians p) U (Om * PI / 30 * r)
      (b_Rhub b) (b_Rtip b) (b_rho b) (nth j Np 0) (nth j Tp 0) Hn Hb Hz eq_refl eq_refl (rep_Fin _) eq_refl eq_refl
      eq_refl eq_refl eq_refl eq_refl (fl_B _ F) HVr HTr HU HVy Hc Hrho' Hd ES Ql Ql' HA). }
  split.
  - rewrite EP, ET. pose proof (blade_energy b Np Tp F (Om * PI / 30) U (fun j Hj => proj1 (ST j Hj))) as E.
    apply (Rmult_le_compat_l (INR (b_B b))) in E; [|lra]. lra.
  - intros Eu. rewrite ET. set (K := 2 * (1 / 2 * b_rho b * U ^ 2) * (2 * PI) / INR (b_B b)).
    assert (HK : 0 <= K).
    { unfold K, Rdiv. apply Rmult_le_pos; [|left; apply Rinv_0_lt_compat; lra]. rewrite Er.
      apply Rmult_le_pos; [|lra]. apply Rmult_le_pos; [lra|]. apply Rmult_le_pos; [lra|apply pow2_ge_0]. }
    assert (E : CSystemSpec.c1 (blade_force b Np Tp) <= K * (b_Rtip b ^ 2 - b_Rhub b ^ 2) / 2).
    { apply blade_thrust; [exact F|exact HK|]. intros j Hj. pose proof (proj2 (ST j Hj) Eu) as S2.
      apply Rmult_le_reg_l with (INR (b_B b)); [lra|]. replace (INR (b_B b) * (K * nth j (b_r b) 0)) with (2 * (1 / 2 * b_rho b * U ^ 2) * (2 * PI * nth j (b_r b) 0)) by (unfold K; field; lra). exact S2. }
    apply (Rmult_le_compat_l (INR (b_B b))) in E; [|lra].
    replace (INR (b_B b) * (K * (b_Rtip b ^ 2 - b_Rhub b ^ 2) / 2)) with (2 * (1 / 2 * g_rho g * U ^ 2) * (PI * (g_Rtip g ^ 2 - g_Rhub g ^ 2))) in E; [exact E|].
    unfold K. rewrite Er, Eh, Et. field. lra.
Qed.
End Rotor.

Lemma rotor_coefficients : forall npi bq g b conds b' outs w i U Om p y, 3 < npi < PI -> root_inside bq -> finds_zeros bq ->
  construct g = Ok b -> flat_disc g -> 0 < g_rho g -> (forall c, In c (g_chord g) -> 0 <= c) -> Forall drags (g_af g) ->
  evaluate npi bq b conds = Ok (b', outs, w) -> nth_error conds i = Some (U, Om, p) -> nth_error outs i = Some (Some y) ->
  0 < U -> 0 < Om -> 0 < g_Rtip g -> forward_inflow npi bq g b U Om p ->
  y_CP y <= y_CT y /\ (useCd (g_opts g) = true -> y_CT y <= 2 * (1 - (g_Rhub g / g_Rtip g) ^ 2)).
Proof.
  intros npi bq g b conds b' outs w i U Om p y Hn Hb Hz HC HD Hr Hc Hdr HE Ec Ey HU HO HR Hang.
  assert (Hr0 : 0 <= g_rho g) by lra.
  destruct (rotor_bounds npi bq g b conds b' outs w i U Om p y Hn Hb Hz HC HD Hr0 Hc Hdr HE Ec Ey HU HO Hang) as (HP & HT).
  destruct (constructed_radius g b HC) as (Er & Erho). destruct HD as (D1 & _ & _ & _ & D2 & _). assert (Z : radians 0 = 0) by (unfold radians; field). rewrite D1, D2, Z, cos_0, sin_0 in Er.
  assert (Er' : b_rotorR b = g_Rtip g) by lra.
  assert (N1 : b_rho b <> 0) by lra. assert (N2 : U <> 0) by lra. assert (N3 : b_rotorR b <> 0) by lra.
  destruct (outputs_consistent npi bq b conds b' outs w i y U Om p HE Ey Ec N1 N2 N3) as (_ & EP & ET & _).
  rewrite Er', Erho in EP, ET. rewrite <- EP, <- ET in HP. rewrite <- ET in HT. clear EP ET. pose proof PI_RGT_0 as HPI.
  assert (HK : 0 < g_rho g * U ^ 2 / 2 * (PI * g_Rtip g ^ 2)).
  { pose proof (pow_lt U 2 HU) as H0. pose proof (pow_lt _ 2 HR) as H1. pose proof (Rmult_lt_0_compat _ _ Hr H0) as M1. pose proof (Rmult_lt_0_compat _ _ PI_RGT_0 H1) as M2.
    apply Rmult_lt_0_compat; [|exact M2]. lra. }
  split.
  - apply Rmult_le_reg_r with (g_rho g * U ^ 2 / 2 * (PI * g_Rtip g ^ 2) * U); [apply Rmult_lt_0_compat; [exact HK|exact HU]|]. lra.
  - intros Eu. specialize (HT Eu). apply Rmult_le_reg_r with (g_rho g * U ^ 2 / 2 * (PI * g_Rtip g ^ 2)); [exact HK|].
    eapply Rle_trans; [exact HT|]. apply Req_le. field. lra.
Qed.
