(** Property C103: thrust and power.

    Anchors: ccblade/ccblade.py CCBlade.evaluate; ccblade/src/bem.f90 inductionFactors, relativeWind, thrustTorque. *)
From Coquelicot Require Import Coquelicot.
From Coq Require Import Reals Bool Arith List Lra Lia.
From Verif Require Import Prelim Num CSystemSpec Bem Blade BladeSpec FlProofs StationProofs ConstructProofs SectorProofs SimilaritySpec InverseForward InverseWitness
  BetzSpec BetzRotor BetzWitness StationLoads PropsBetz ThrustSpec ThrustRotor.
Import ListNotations.
Open Scope R_scope.

(** C103. A flat rotor takes no more power out of the wind than its thrust times the wind speed, if the inflow angles of
    the loaded stations are between 0 and 90 degrees. *)
Theorem C103_power_thrust : forall npi bq g b conds b' outs w i U Om p y, 3 < npi < PI -> root_inside bq -> finds_zeros bq ->
  construct g = Ok b -> flat_disc g -> 0 <= g_rho g -> (forall c, In c (g_chord g) -> 0 <= c) -> Forall drags (g_af g) ->
  evaluate npi bq b conds = Ok (b', outs, w) -> nth_error conds i = Some (U, Om, p) -> nth_error outs i = Some (Some y) ->
  0 < U -> 0 < Om -> forward_inflow npi bq g b U Om p ->
  y_P y <= t_T (y_tot y) * U.
Proof. intros. eapply rotor_bounds; eassumption. Qed.
Print Assumptions C103_power_thrust.

(** C103. The thrust is at most twice the dynamic pressure of the wind times the area swept, if the drag is used in the induction. *)
Theorem C103_thrust : forall npi bq g b conds b' outs w i U Om p y, 3 < npi < PI -> root_inside bq -> finds_zeros bq ->
  construct g = Ok b -> flat_disc g -> 0 <= g_rho g -> (forall c, In c (g_chord g) -> 0 <= c) -> Forall drags (g_af g) ->
  evaluate npi bq b conds = Ok (b', outs, w) -> nth_error conds i = Some (U, Om, p) -> nth_error outs i = Some (Some y) ->
  0 < U -> 0 < Om -> forward_inflow npi bq g b U Om p -> useCd (g_opts g) = true ->
  t_T (y_tot y) <= 2 * (1 / 2 * g_rho g * U ^ 2) * (PI * (g_Rtip g ^ 2 - g_Rhub g ^ 2)).
Proof. intros. eapply rotor_bounds; eassumption. Qed.
Print Assumptions C103_thrust.

(** C103. The same for the coefficients. *)
Theorem C103_coefficients : forall npi bq g b conds b' outs w i U Om p y, 3 < npi < PI -> root_inside bq -> finds_zeros bq ->
  construct g = Ok b -> flat_disc g -> 0 < g_rho g -> (forall c, In c (g_chord g) -> 0 <= c) -> Forall drags (g_af g) ->
  evaluate npi bq b conds = Ok (b', outs, w) -> nth_error conds i = Some (U, Om, p) -> nth_error outs i = Some (Some y) ->
  0 < U -> 0 < Om -> 0 < g_Rtip g -> forward_inflow npi bq g b U Om p ->
  y_CP y <= y_CT y /\ (useCd (g_opts g) = true -> y_CT y <= 2 * (1 - (g_Rhub g / g_Rtip g) ^ 2)).
Proof. exact rotor_coefficients. Qed.
Print Assumptions C103_coefficients.

Example C103_example : forall npi, 3 < npi < PI -> exists b' y w,
  root_inside quarter /\ finds_zeros quarter /\ construct front_args = Ok front_blade /\ flat_disc front_args /\
  Forall drags (g_af front_args) /\ forward_inflow npi quarter front_args front_blade 1 (5 / PI) 0 /\ useCd (g_opts front_args) = true /\
  evaluate npi quarter front_blade [(1, 5 / PI, 0)] = Ok (b', [Some y], w) /\ 0 < y_P y <= t_T (y_tot y) /\ y_CT y <= 35 / 18.
Proof.
  intros npi Hn. pose proof PI_RGT_0 as HP. destruct (front_power npi Hn) as (l0 & l1 & SL & A0 & A1 & b' & y & w & E & P0).
  pose proof (two_construct 4 5 (2 * PI) PI 1 6 ltac:(lra) ltac:(lra)) as EC. pose proof (two_disc 4 5 (2 * PI) PI 1 6 ltac:(lra) ltac:(lra)) as ED.
  assert (HC : forall c, In c (g_chord front_args) -> 0 <= c) by (intros c [<-|[<-|[]]]; lra).
  assert (HD : Forall drags (g_af front_args)) by (constructor; [exact lift2_drags|constructor; [exact lift2_drags|constructor]]).
  assert (HO : 0 < 5 / PI) by (apply Rdiv_lt_0_compat; lra).
  assert (HI : forward_inflow npi quarter front_args front_blade 1 (5 / PI) 0).
  { intros ls j l th al E1 El Et Ra _. split; [|eapply front_angle; eauto].
    rewrite SL in E1. apply ok_inj in E1. subst ls.
    assert (H : al = 45 /\ th = 0).
    { destruct j as [|[|j]]; cbn in El, Et; [| |destruct j; discriminate El].
      - injection El; intros <-. injection Et; intros <-. split; [exact (rep_fun _ _ _ Ra A0)|reflexivity].
      - injection El; intros <-. injection Et; intros <-. split; [exact (rep_fun _ _ _ Ra A1)|reflexivity]. }
    destruct H as (-> & ->). unfold radians. lra. }
  assert (R1 : 0 < g_rho front_args) by (cbn; lra). assert (R0 : 0 <= g_rho front_args) by lra. assert (U1 : 0 < 1) by lra. assert (RT : 0 < g_Rtip front_args) by (cbn; lra).
  exists b', y, w. refine (conj quarter_inside (conj quarter_zeros (conj EC (conj ED (conj HD (conj HI (conj eq_refl (conj E (conj (conj P0 _) _))))))))).
  - pose proof (C103_power_thrust npi quarter front_args front_blade [(1, 5 / PI, 0)] b' [Some y] w 0%nat 1 (5 / PI) 0 y Hn quarter_inside quarter_zeros EC ED
      R0 HC HD E eq_refl eq_refl U1 HO HI). lra.
  - destruct (C103_coefficients npi quarter front_args front_blade [(1, 5 / PI, 0)] b' [Some y] w 0%nat 1 (5 / PI) 0 y Hn quarter_inside quarter_zeros EC ED
      R1 HC HD E eq_refl eq_refl U1 HO RT HI) as (_ & H). specialize (H eq_refl). cbn [g_Rtip g_Rhub front_args two_args] in H.
    replace (2 * (1 - (1 / 6) ^ 2)) with (35 / 18) in H by field. exact H.
Qed.
