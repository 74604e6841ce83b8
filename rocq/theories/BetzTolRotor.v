(** The Betz limit for approximate solutions (C109), from one station to the rotor. *)
From Coquelicot Require Import Coquelicot.
From Coq Require Import Reals Bool Arith List Lra Lia.
From Verif Require Import Prelim Num CSystemSpec Interp Bem BemGeomSpec BemGeomProofs Blade IndSpec IndProofs FlProofs BladeSpec StationProofs StationLoads InterpSpec ConstructProofs BladeProofs
  SectorProofs SimilaritySpec SimilarityProofs SymmetryProofs BladeDvProofs InverseForward PolarProofs TwistProofs BetzSpec BetzProofs BetzStation BetzRotor BetzTolSpec BetzTol.
Import ListNotations.
Open Scope R_scope.

Lemma flat_load_tol d npi bq b U Om p ls i l Tp : 0 <= d < 1 -> 3 < npi < PI -> root_inside bq -> flat b ->
  0 <= b_rho b -> (forall c, In c (b_chord b) -> 0 <= c) -> Forall drags (b_af b) -> 0 < U -> 0 < Om ->
  section_loads npi bq b U Om p 0 = Ok ls -> nth_error ls i = Some l -> (forall x, In x (b_theta b) -> exists t, x = Fin t) -> rep (o_Tp l) Tp ->
  (forall t r, nth_error (b_theta b) i = Some (Fin t) -> nth_error (b_r b) i = Some r -> 0 < Tp ->
     exists al a ap, rep (o_alpha l) al /\ rep (o_a l) a /\ rep (o_ap l) ap /\ 0 < radians al + t + radians p < PI / 2 /\
       closes_within d U (Om * PI / 30 * r) (radians al + t + radians p) a ap) ->
  (1 - d) ^ 3 * (INR (b_B b) * (Om * PI / 30) * Tp) <= betz * (1 / 2 * b_rho b * U ^ 3) * (2 * PI).
Proof.
  intros Hd Hn Hb F Hrho Hch Haf HU HO SL El Qt QT Hal. pose proof PI_RGT_0 as HPI.
  unfold section_loads in SL. apply bind_ok in SL. destruct SL as ((b' & ls') & D & SL). apply ok_inj in SL. cbn [snd] in SL. subst ls'.
  unfold distributedAeroLoads in D. destruct (negb (shapes_ok b)); [discriminate|]. cbv zeta in D.
  apply bind_ok in D. destruct D as (ys & EM & D). apply ok_inj in D. apply (f_equal snd) in D. cbn [snd] in D. subst ls.
  rewrite nth_error_map in El. destruct (nth_error ys i) as [(th & l')|] eqn:EY; [|discriminate El]. cbn in El. injection El; intros ->. clear El.
  assert (Hi : (i < length (b_r b))%nat).
  { pose proof (mapM_length _ _ _ EM) as X. rewrite seq_length in X. rewrite <- X. apply nth_error_Some. rewrite EY. discriminate. }
  pose proof (mapM_nth _ _ _ 0%nat (Fin 0, zero_load) EM i ltac:(rewrite seq_length; lia)) as S.
  rewrite seq_nth in S by lia. cbn [Nat.add] in S. rewrite (nth_of_error _ _ _ _ EY) in S.
  unfold station_i in S. cbv zeta in S. rewrite (fl_inv _ F) in S.
  replace (reqb Om 0) with false in S by (symmetry; apply reqb_false; lra). cbn [negb] in S.
  apply bind_ok in S. destruct S as (r & F1 & S). apply bind_ok in S. destruct S as (c & F2 & S).
  apply bind_ok in S. destruct S as (af & F3 & S). apply bind_ok in S. destruct S as (th' & F4 & S).
  apply bind_ok in S. destruct S as (l0 & ES & S). apply ok_inj in S. apply pair_equal_spec in S. destruct S as (_ & ->).
  assert (G : forall X (q : list X) x, pyget q i = Ok x -> nth_error q i = Some x).
  { intros X q x E. unfold pyget in E. destruct (nth_error q i); [apply ok_inj in E; congruence|discriminate]. }
  apply G in F1, F2, F3, F4. destruct (Qt _ (nth_error_In _ _ F4)) as (t & ->).
  destruct (flat_wind b U Om (radians 0) i F Hi) as (W1 & W2). pose proof (flat_station b i F Hi) as Hr. pose proof (fl_hub _ F) as Hh.
  rewrite (nth_of_error _ _ _ 0 F1) in W2, Hr.
  assert (HVy : 0 < Om * PI / 30 * r) by (apply Rmult_lt_0_compat; [|lra]; apply Rmult_lt_0_compat; [apply Rmult_lt_0_compat|]; lra).
  rewrite W1, W2 in ES.
  assert (HVr : 0 < b_Rhub b < r) by lra. assert (HTr : r < b_Rtip b) by lra.
  pose proof (station_tol d npi bq (rotor_of b (radians p)) (mkSect (Fin r) (Fin c) (Fin t) af (Fin U) (Fin (Om * PI / 30 * r))) l r c t (radians p) U (Om * PI / 30 * r) (b_Rhub b) (b_Rtip b) (b_rho b) Tp Hd Hn Hb eq_refl eq_refl (rep_Fin t) eq_refl eq_refl
    eq_refl eq_refl eq_refl eq_refl (fl_B _ F) HVr HTr HU HVy (Hch c (nth_error_In _ _ F2)) Hrho
    (proj1 (Forall_forall _ _) Haf af (nth_error_In _ _ F3)) ES QT (Hal t r F4 F1)) as SP.
  cbn [rotor_of rt_B] in SP. apply Rmult_le_reg_r with r; [lra|]. lra.
Qed.

Lemma betz_power_tol : forall d npi bq g b conds b' outs w i U Om p y, 0 <= d < 1 -> 3 < npi < PI -> root_inside bq ->
  construct g = Ok b -> flat_disc g -> 0 <= g_rho g -> (forall c, In c (g_chord g) -> 0 <= c) -> Forall drags (g_af g) ->
  evaluate npi bq b conds = Ok (b', outs, w) -> nth_error conds i = Some (U, Om, p) -> nth_error outs i = Some (Some y) -> 0 < U -> 0 < Om ->
  (forall ls j l th r Tp, section_loads npi bq b U Om p 0 = Ok ls -> nth_error ls j = Some l -> nth_error (g_theta g) j = Some th ->
     nth_error (b_r b) j = Some r -> rep (o_Tp l) Tp -> 0 < Tp -> settled_within d th p U (Om * PI / 30 * r) l) ->
  y_P y <= betz / (1 - d) ^ 3 * wind_power (g_rho g) U (PI * (g_Rtip g ^ 2 - g_Rhub g ^ 2)).
Proof.
  intros d npi bq g b conds b' outs w i U Om p y Hd Hn Hb HC HF Hrho Hch Haf HE Ec Ey HU HO Hal.
  destruct (flat_construct g b HC HF) as (F & EB & Er & Ech & Eaf & Eth & Eh & Et). pose proof PI_RGT_0 as HPI.
  destruct (flat_power _ _ _ _ _ _ _ _ _ _ _ _ F HE Ec Ey) as (ls & Np & Tp & SL & QT & ->).
  assert (HB : 1 <= INR (b_B b)) by (apply (le_INR 1); exact (fl_B _ F)).
  assert (HV : 0 < U ^ 3) by (apply pow_lt; lra).
  assert (Hw : 0 < Om * PI / 30) by (apply Rmult_lt_0_compat; [apply Rmult_lt_0_compat|]; lra).
  set (om := Om * PI / 30) in *. assert (Hd3 : 0 < (1 - d) ^ 3) by (apply pow_lt; lra).
  set (K := betz / (1 - d) ^ 3 * (1 / 2 * b_rho b * U ^ 3) * (2 * PI) / (INR (b_B b) * om)).
  assert (HBo : 0 < INR (b_B b) * om) by (apply Rmult_lt_0_compat; lra).
  assert (HK : 0 <= K).
  { unfold K, Rdiv. apply Rmult_le_pos; [|left; apply Rinv_0_lt_compat; exact HBo]. unfold betz. rewrite Er.
    apply Rmult_le_pos; [|lra]. apply Rmult_le_pos; [|apply Rmult_le_pos; lra].
    apply Rmult_le_pos; [lra|left; apply Rinv_0_lt_compat; exact Hd3]. }
  assert (FT : CSystemSpec.c1 (blade_moment b Np Tp) <= K * (b_Rtip b ^ 2 - b_Rhub b ^ 2) / 2).
  { apply flat_torque; [exact F|exact HK|]. intros j Hj.
    destruct (le_lt_dec (length Tp) j) as [Hl|Hl]; [rewrite nth_overflow by exact Hl; exact HK|].
    destruct (Forall2_nth_r _ _ _ j 0 _ QT Hl eq_refl) as (l & El & Ql).
    assert (FL := flat_load_tol d npi bq b U Om p ls j l (nth j Tp 0) Hd Hn Hb F ltac:(rewrite Er; exact Hrho) ltac:(rewrite Ech; exact Hch)
      ltac:(rewrite Eaf; exact Haf) HU HO SL El). 
    assert (Qt : forall x, In x (b_theta b) -> exists t, x = Fin t).
    { rewrite Eth. intros x Hx. apply in_map_iff in Hx. destruct Hx as (th & <- & _). eauto. }
    specialize (FL Qt Ql).
    assert (FL' : (1 - d) ^ 3 * (INR (b_B b) * om * nth j Tp 0) <= betz * (1 / 2 * b_rho b * U ^ 3) * (2 * PI)).
    { apply FL. intros t r Et' Er' PT. rewrite Eth, nth_error_map in Et'. destruct (nth_error (g_theta g) j) as [th|] eqn:Hth; [|discriminate Et']. cbn in Et'. injection Et'; intros <-.
      destruct (Hal ls j l th r _ SL El Hth Er' Ql PT) as (al & a & ap & Q1 & Q2 & Q3 & H1 & H2). exists al, a, ap.
      replace (radians al + radians th + radians p) with (radians (al + th + p)) by (unfold radians; field). auto. }
    unfold K. apply Rmult_le_reg_l with ((1 - d) ^ 3 * (INR (b_B b) * om)); [apply Rmult_lt_0_compat; assumption|].
    replace ((1 - d) ^ 3 * (INR (b_B b) * om) * (betz / (1 - d) ^ 3 * (1 / 2 * b_rho b * U ^ 3) * (2 * PI) / (INR (b_B b) * om)))
      with (betz * (1 / 2 * b_rho b * U ^ 3) * (2 * PI)) by (field; lra). lra. }
  apply (Rmult_le_compat_l (INR (b_B b) * om)) in FT; [|lra].
  replace (INR (b_B b) * om * (K * (b_Rtip b ^ 2 - b_Rhub b ^ 2) / 2)) with (betz / (1 - d) ^ 3 * wind_power (g_rho g) U (PI * (g_Rtip g ^ 2 - g_Rhub g ^ 2))) in FT.
  2:{ unfold K, wind_power. rewrite Er, Eh, Et. field. lra. }
  eapply Rle_trans; [|exact FT]. right. unfold CSystemSpec.c1. field.
Qed.

(** ** The power coefficient *)
Lemma betz_coefficient_tol : forall d npi bq g b conds b' outs w i U Om p y, 0 <= d < 1 -> 3 < npi < PI -> root_inside bq ->
  construct g = Ok b -> flat_disc g -> 0 < g_rho g -> (forall c, In c (g_chord g) -> 0 <= c) -> Forall drags (g_af g) ->
  evaluate npi bq b conds = Ok (b', outs, w) -> nth_error conds i = Some (U, Om, p) -> nth_error outs i = Some (Some y) ->
  0 < U -> 0 < Om -> 0 < g_Rtip g ->
  (forall ls j l th r Tp, section_loads npi bq b U Om p 0 = Ok ls -> nth_error ls j = Some l -> nth_error (g_theta g) j = Some th ->
     nth_error (b_r b) j = Some r -> rep (o_Tp l) Tp -> 0 < Tp -> settled_within d th p U (Om * PI / 30 * r) l) ->
  y_CP y <= betz / (1 - d) ^ 3 * (1 - (g_Rhub g / g_Rtip g) ^ 2).
Proof.
  intros d npi bq g b conds b' outs w i U Om p y Hd Hn Hb HC HD Hr Hc Hdr HE Ec Ey HU HO HR Hang.
  pose proof (betz_power_tol d npi bq g b conds b' outs w i U Om p y Hd Hn Hb HC HD ltac:(lra) Hc Hdr HE Ec Ey HU HO Hang) as HP.
  destruct (constructed_radius g b HC) as (Er & Erho). destruct HD as (D1 & _ & _ & _ & D2 & _). assert (Z : radians 0 = 0) by (unfold radians; field). rewrite D1, D2, Z, cos_0, sin_0 in Er.
  assert (Er' : b_rotorR b = g_Rtip g) by lra.
  assert (N1 : b_rho b <> 0) by lra. assert (N2 : U <> 0) by lra. assert (N3 : b_rotorR b <> 0) by lra.
  destruct (outputs_consistent npi bq b conds b' outs w i y U Om p HE Ey Ec N1 N2 N3) as (_ & EP & _).
  rewrite Er', Erho in EP. rewrite <- EP in HP. clear EP. pose proof PI_RGT_0.
  assert (HK : 0 < g_rho g * U ^ 2 / 2 * (PI * g_Rtip g ^ 2) * U).
  { pose proof (pow_lt U 2 HU). pose proof (pow_lt _ 2 HR). pose proof (Rmult_lt_0_compat _ _ Hr H0) as M1. pose proof (Rmult_lt_0_compat _ _ PI_RGT_0 H1) as M2.
    apply Rmult_lt_0_compat; [|exact HU]. apply Rmult_lt_0_compat; [|exact M2]. lra. }
  apply Rmult_le_reg_r with (g_rho g * U ^ 2 / 2 * (PI * g_Rtip g ^ 2) * U); [exact HK|].
  eapply Rle_trans; [exact HP|]. apply Req_le. unfold wind_power. field. lra.
Qed.
