(** Derivatives that are not numbers (C97, C98): the derivative part of the class with IEEE special values (BladeDiffFl.v). *)
From Coquelicot Require Import Coquelicot.
From Coq Require Import Reals Bool Arith List Lra Lia.
From Verif Require Import Prelim Num Bem DiffSpec BemDiff DeriveLib Blade BladeDiff BladeDiffSpec BladeDiffFl FlProofs FlDvSpec
  BladeDvProofs BladeDvExample FlDvProofs FlDvRates.
Import ListNotations.
Open Scope R_scope.

(** ** C97: the dictionaries of distributedAeroLoads *)

(** The property: every entry of the dictionaries is a finite number when distributedAeroLoads returns. *)
Definition load_derivatives_finite : Prop := forall npi bq fx D Np Tp dN dT i,
  @g_distributed fl _ npi bq fx D = Ok (Np, Tp, dN, dT) -> (i < f_n fx)%nat -> f_rho fx <> 0 ->
  Forall (fun e => exists x, rep e x) (load_entries (f_n fx) dN i ++ load_entries (f_n fx) dT i).

(** False: for every parked rotor that faces the wind all of them are NaN (the loads are 0). *)
Theorem C97_parked_nan : forall npi bq fx D, x_Omega D = 0 -> x_tilt D = 0 -> x_yaw D = 0 -> f_rho fx <> 0 ->
  exists Np Tp dN dT, @g_distributed fl _ npi bq fx D = Ok (Np, Tp, dN, dT) /\
  forall i, (i < f_n fx)%nat -> Np i = 0 /\ Tp i = 0 /\ Forall (eq NaN) (load_entries (f_n fx) dN i) /\ Forall (eq NaN) (load_entries (f_n fx) dT i).
Proof. exact facing_distributed. Qed.
Print Assumptions C97_parked_nan.

(** Any rotor: a load that is exactly 0 at a station has NaN derivatives there, all of them. *)
Theorem C97_zero_load_nan : forall npi bq fx D Np Tp dN dT i,
  @g_distributed fl _ npi bq fx D = Ok (Np, Tp, dN, dT) -> f_rho fx <> 0 -> (i < f_n fx)%nat ->
  (Tp i = 0 -> Forall (eq NaN) (load_entries (f_n fx) dT i)) /\
  (Np i = 0 -> Forall (eq NaN) (load_entries (f_n fx) dN i) /\ Forall (eq NaN) (load_entries (f_n fx) dT i)) /\
  (windless fx D i -> Np i = 0 /\ Tp i = 0).
Proof. exact zero_loads. Qed.
Print Assumptions C97_zero_load_nan.

Definition parked_D : design :=
  mkDesign (aget [1; 2]) (aget [1; 1]) (aget [0; 0]) (aget [0; 0]) (aget [0; 0]) 0 0 90 (1 / 2) 3 0 0 0 0 0 10 0 0.

Theorem C97_finite_derivatives_refuted : ~ load_derivatives_finite.
Proof.
  intros H. destruct (facing_distributed 3 ex_bq ex_fx parked_D eq_refl eq_refl eq_refl) as (Np & Tp & dN & dT & E & A); [cbn; lra|].
  assert (Hi : (0 < f_n ex_fx)%nat) by (cbn; lia). destruct (A 0%nat Hi) as (_ & _ & N & _).
  specialize (H _ _ _ _ _ _ _ _ 0%nat E Hi ltac:(cbn; lra)). cbn [load_entries app] in H, N. inversion H as [|e es [x X] _]. inversion N as [|e' es' Y _]. subst.
  rewrite <- Y in X. discriminate X.
Qed.
Print Assumptions C97_finite_derivatives_refuted.

(** What holds: where no divisor is zero the entries are those of the exact dictionaries (to which C64 applies). *)
Theorem C97_same_numbers : forall npi bq fx D Np Tp dN dT, distributed_dv npi bq fx D = Ok (Np, Tp, dN, dT) ->
  exists gN gT, @g_distributed fl _ npi bq fx D = Ok (Np, Tp, gN, gT) /\
  forall i, (i < f_n fx)%nat -> divisors_ok npi bq fx D i ->
    Forall2 rep (load_entries (f_n fx) gN i) (real_load_entries (f_n fx) dN i) /\ Forall2 rep (load_entries (f_n fx) gT i) (real_load_entries (f_n fx) dT i).
Proof. exact distributed_same. Qed.
Print Assumptions C97_same_numbers.

(** ... in particular under the hypotheses of C64. *)
Theorem C97_rates_are_finite : forall npi bq fx (D : R -> design) t Np Tp dN dT, distributed_dv npi bq fx (D t) = Ok (Np, Tp, dN, dT) ->
  exists gN gT, @g_distributed fl _ npi bq fx (D t) = Ok (Np, Tp, gN, gT) /\
  forall i, (i < f_n fx)%nat -> station_ok npi bq fx D t i -> (forall l, station_result npi bq fx (D t) i = Ok l -> o_ct l <> 0) ->
    Forall2 rep (load_entries (f_n fx) gN i) (real_load_entries (f_n fx) dN i) /\ Forall2 rep (load_entries (f_n fx) gT i) (real_load_entries (f_n fx) dT i).
Proof. exact distributed_rates. Qed.
Print Assumptions C97_rates_are_finite.

(** The rotor of BladeDvExample.v has numbers in all entries; parked it has none. *)
Example C97_example : forall npi, (exists o, distributed_dv npi ex_bq ex_fx (ex_D 10) = Ok o) /\
  (forall i, (i < 2)%nat -> divisors_ok npi ex_bq ex_fx (ex_D 10) i) /\
  x_Omega parked_D = 0 /\ x_tilt parked_D = 0 /\ x_yaw parked_D = 0 /\ fst (wind_d ex_fx parked_D) 1%nat = 10 /\ windless ex_fx parked_D 1.
Proof.
  intros npi. destruct (ex_distributed npi 10 ltac:(lra)) as (_ & _ & _ & S & O). split; [exact O|]. split.
  - intros i Hi. destruct O as [o O]. apply rates_divisors; [exact Hi|apply S; exact Hi|exact (one_station _ _ _ _ _ _ O Hi)|].
    intros l El. rewrite <- (sector0 10) in El. destruct (ex_result 0 npi 10 i ltac:(lra) Hi) as (l' & E' & _ & _ & _ & C).
    rewrite E' in El. apply StationProofs.ok_inj in El. subst l'. rewrite C. pose proof (ex_phi_range 10 i ltac:(lra)) as P. pose proof PI_RGT_0.
    assert (0 < sin (ex_phi i 10)) by (apply sin_gt_0; lra). apply Rgt_not_eq, pow_lt. assumption.
  - do 3 (split; [reflexivity|]). split; [|right; apply facing_Vy; reflexivity].
    unfold wind_d, windComponents, parked_D, ex_fx, ex_fxm, defineCurvature.
    cbn [f_n x_r x_chord x_theta x_precurve x_presweep x_precone x_tilt x_hubHt x_Rhub x_Rtip x_precurveTip x_presweepTip x_yaw x_shear x_azimuth x_Uinf x_Omega x_pitch fst snd].
    rewrite deg0, sin_0, cos_0. unfold rpow. replace (reqb 0 0) with true by (symmetry; apply reqb_true; reflexivity).
    assert (C : curv_cone 2 (curv_x (aget [1; 2]) (aget [0; 0]) 0) (curv_z (aget [1; 2]) (aget [0; 0]) 0) 1%nat = 0).
    { unfold curv_cone, curv_x, curv_z, atan2. rewrite cos_0, sin_0. cbn [Nat.eqb Nat.sub INR aget nth].
      replace (rltb 0 _) with true by (symmetry; apply rltb_true; lra). match goal with |- atan ?u = 0 => replace u with 0 by field end. exact atan_0. }
    rewrite C, sin_0, cos_0. field.
Qed.

(** ** C98: the dictionaries of evaluate *)

(** The property: every entry is a finite number when evaluate returns and the wind speed, the density and the radius are not 0. *)
Definition total_derivatives_finite : Prop := forall npi bq fx D ev i,
  @g_evaluate fl _ npi bq fx D = Ok ev -> (i < f_n fx)%nat -> dyn (f_rho fx) D <> 0 -> rotorR_d D <> 0 -> x_Omega D <> 0 ->
  Forall (fun E => Forall (fun e => exists x, rep e x) (scalar_entries E ++ tip_entries E ++ array_entries E i)) (all_dicts ev).

(** False: one azimuth (which is what the class uses without tilt, yaw and shear) gives Mz = 0, and no scalar entry of dCMz is a
    number. *)
Theorem C98_one_sector_nan : forall npi bq fx D ev, @g_evaluate fl _ npi bq fx D = Ok ev -> f_nSector fx = 1%nat ->
  t_Mz (gv_tot ev) = 0 /\ no_scalars (gv_dCMz ev).
Proof. exact one_sector. Qed.
Print Assumptions C98_one_sector_nan.

(** The same for every force or moment that is 0, and for the power of a parked rotor. *)
Theorem C98_zero_force_nan : forall npi bq fx D ev, @g_evaluate fl _ npi bq fx D = Ok ev ->
  (t_T (gv_tot ev) = 0 -> no_scalars (gv_dCT ev)) /\ (t_Y (gv_tot ev) = 0 -> no_scalars (gv_dCY ev)) /\ (t_Z (gv_tot ev) = 0 -> no_scalars (gv_dCZ ev)) /\
  (t_Q (gv_tot ev) = 0 -> no_scalars (gv_dCQ ev)) /\ (t_My (gv_tot ev) = 0 -> no_scalars (gv_dCMy ev)) /\ (t_Mz (gv_tot ev) = 0 -> no_scalars (gv_dCMz ev)) /\
  (t_Mb (gv_tot ev) = 0 -> no_scalars (gv_dCMb ev)) /\
  (t_Q (gv_tot ev) = 0 \/ x_Omega D = 0 -> no_scalars (gv_dCP ev)) /\ (t_Q (gv_tot ev) = 0 -> forall i, Forall (eq NaN) (array_entries (gv_dCP ev) i)).
Proof. exact evaluate_zero. Qed.
Print Assumptions C98_zero_force_nan.

(** One station without tangential load at one azimuth spoils all sixteen dictionaries. *)
Theorem C98_one_station_nan : forall npi bq fx D ev az Np Tp dN dT i,
  @g_evaluate fl _ npi bq fx D = Ok ev -> f_rho fx <> 0 -> In az (azimuths (f_nSector fx)) -> (i < f_n fx)%nat ->
  @g_distributed fl _ npi bq fx (set_azimuth D (degrees az)) = Ok (Np, Tp, dN, dT) -> Tp i = 0 ->
  Forall (fun E => Forall (eq NaN) (scalar_entries E ++ array_entries E i)) (all_dicts ev).
Proof. exact evaluate_station. Qed.
Print Assumptions C98_one_station_nan.

(** What holds: the numbers of the exact dictionaries (to which C64 and C65 apply) where no divisor is zero. *)
Theorem C98_same_numbers : forall npi bq fx D v, evaluate_dv npi bq fx D = Ok v -> dyn (f_rho fx) D <> 0 -> rotorR_d D <> 0 ->
  (forall az i, In az (azimuths (f_nSector fx)) -> (i < f_n fx)%nat -> divisors_ok npi bq fx (set_azimuth D (degrees az)) i) ->
  exists ev, g_evaluate npi bq fx D = Ok ev /\ gv_tot ev = ev_tot v /\ forall i, (i < f_n fx)%nat ->
    Forall2 (fun E E' => same_numbers E E' i) [gv_dT ev; gv_dY ev; gv_dZ ev; gv_dQ ev; gv_dMy ev; gv_dMz ev; gv_dMb ev; gv_dP ev]
                                              [ev_dT v; ev_dY v; ev_dZ v; ev_dQ v; ev_dMy v; ev_dMz v; ev_dMb v; ev_dP v] /\
    (t_T (ev_tot v) <> 0 -> same_numbers (gv_dCT ev) (ev_dCT v) i) /\ (t_Y (ev_tot v) <> 0 -> same_numbers (gv_dCY ev) (ev_dCY v) i) /\
    (t_Z (ev_tot v) <> 0 -> same_numbers (gv_dCZ ev) (ev_dCZ v) i) /\ (t_Q (ev_tot v) <> 0 -> same_numbers (gv_dCQ ev) (ev_dCQ v) i) /\
    (t_My (ev_tot v) <> 0 -> same_numbers (gv_dCMy ev) (ev_dCMy v) i) /\ (t_Mz (ev_tot v) <> 0 -> same_numbers (gv_dCMz ev) (ev_dCMz v) i) /\
    (t_Mb (ev_tot v) <> 0 -> same_numbers (gv_dCMb ev) (ev_dCMb v) i) /\
    (t_Q (ev_tot v) <> 0 -> x_Omega D <> 0 -> same_numbers (gv_dCP ev) (ev_dCP v) i).
Proof. exact evaluate_same. Qed.
Print Assumptions C98_same_numbers.

(** ... and the hypotheses of C64 and C65 exclude zero divisors. *)
Theorem C98_rates_divisors : forall npi bq fx (D : R -> design) t v E, sectors_ok npi bq fx D t v -> evaluate_dv npi bq fx (D t) = Ok E ->
  forall az i, In az (azimuths (f_nSector fx)) -> (i < f_n fx)%nat -> divisors_ok npi bq fx (set_azimuth (D t) (degrees az)) i.
Proof. exact sector_divisors. Qed.
Print Assumptions C98_rates_divisors.

Lemma ex_dyn m : dyn (f_rho (ex_fxm m)) (ex_D 10) <> 0.
Proof. unfold dyn. cbn [f_rho ex_fxm x_Uinf ex_D]. lra. Qed.
Lemma ex_radius : rotorR_d (ex_D 10) <> 0.
Proof. unfold rotorR_d. cbn [x_Rtip x_precone x_precurveTip ex_D]. rewrite deg0, cos_0, sin_0. lra. Qed.
Lemma ex_one : exists ev, @g_evaluate fl _ 3 ex_bq (ex_fxm 1) (ex_D 10) = Ok ev.
Proof.
  destruct (ex_evaluate 1 3 10 ltac:(lra)) as (_ & S & [v Ev] & _).
  destruct (evaluate_same _ _ _ _ _ Ev (ex_dyn 1) ex_radius (sector_divisors _ _ _ _ _ _ _ S Ev)) as (ev & G & _). exists ev. exact G.
Qed.

Theorem C98_finite_derivatives_refuted : ~ total_derivatives_finite.
Proof.
  intros H. destruct ex_one as [ev G]. destruct (one_sector _ _ _ _ _ G eq_refl) as [_ N].
  assert (Hi : (0 < f_n (ex_fxm 1))%nat) by (cbn; lia).
  assert (O : x_Omega (ex_D 10) <> 0) by (cbn [x_Omega ex_D]; pose proof PI_RGT_0; apply Rgt_not_eq, Rdiv_lt_0_compat; lra).
  pose proof (H _ _ _ _ _ 0%nat G Hi (ex_dyn 1) ex_radius O) as A. rewrite Forall_forall in A.
  specialize (A (gv_dCMz ev) ltac:(unfold all_dicts; cbn; tauto)). unfold no_scalars in N. rewrite Forall_forall in A, N.
  assert (I : In (ge_dprecone (gv_dCMz ev)) (scalar_entries (gv_dCMz ev) ++ tip_entries (gv_dCMz ev))) by (left; reflexivity).
  assert (I' : In (ge_dprecone (gv_dCMz ev)) (scalar_entries (gv_dCMz ev) ++ tip_entries (gv_dCMz ev) ++ array_entries (gv_dCMz ev) 0)) by (left; reflexivity).
  destruct (A _ I') as [x X]. rewrite <- (N _ I) in X. discriminate X.
Qed.
Print Assumptions C98_finite_derivatives_refuted.

(** The rotor of BladeDvExample.v with four azimuths meets the hypotheses of C98_same_numbers, with one azimuth those of
    C98_one_sector_nan. *)
Example C98_example : forall npi,
  (exists v, evaluate_dv npi ex_bq ex_fx (ex_D 10) = Ok v) /\ dyn (f_rho ex_fx) (ex_D 10) <> 0 /\ rotorR_d (ex_D 10) <> 0 /\
  (forall az i, In az (azimuths 4) -> (i < 2)%nat -> divisors_ok npi ex_bq ex_fx (set_azimuth (ex_D 10) (degrees az)) i) /\
  (exists ev, @g_evaluate fl _ 3 ex_bq (ex_fxm 1) (ex_D 10) = Ok ev) /\ f_nSector (ex_fxm 1) = 1%nat.
Proof.
  intros npi. destruct (ex_evaluate 4 npi 10 ltac:(lra)) as (_ & S & [v Ev] & _). split; [exists v; exact Ev|]. split; [apply (ex_dyn 4)|]. split; [apply ex_radius|].
  split; [exact (sector_divisors _ _ _ _ _ _ _ S Ev)|]. split; [exact ex_one|reflexivity].
Qed.
