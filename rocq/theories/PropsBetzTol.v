(** Property C109: the Betz limit for solutions that are only approximate.

    Anchors: ccblade/ccblade.py CCBlade.evaluate and __runBEM; ccblade/src/bem.f90 inductionFactors. *)
From Coquelicot Require Import Coquelicot.
From Coq Require Import Reals Bool Arith List Lra Lia.
From Verif Require Import Prelim Num CSystemSpec Bem Blade BladeSpec FlProofs StationProofs ConstructProofs SectorProofs SimilaritySpec InverseForward InverseWitness
  BemGeomSpec BemGeomProofs IndSpec IndProofs BetzSpec BetzProofs BetzRotor BetzWitness IdealRoot StationLoads BetzTolSpec BetzTol BetzTolRotor BetzTolWitness.
Import ListNotations.
Open Scope R_scope.

(** C109. Nothing is assumed of the root finder but that it answers inside its bracket. If the reported angles and inductions
    of the stations that drive the rotor close the velocity triangle up to the relative error d, the power exceeds the
    Betz limit by at most the factor 1 / (1 - d)^3. *)
Theorem C109_power : forall d npi bq g b conds b' outs w i U Om p y, 0 <= d < 1 -> 3 < npi < PI -> root_inside bq ->
  construct g = Ok b -> flat_disc g -> 0 <= g_rho g -> (forall c, In c (g_chord g) -> 0 <= c) -> Forall drags (g_af g) ->
  evaluate npi bq b conds = Ok (b', outs, w) -> nth_error conds i = Some (U, Om, p) -> nth_error outs i = Some (Some y) ->
  0 < U -> 0 < Om ->
  (forall ls j l th r Tp, section_loads npi bq b U Om p 0 = Ok ls -> nth_error ls j = Some l -> nth_error (g_theta g) j = Some th ->
     nth_error (b_r b) j = Some r -> rep (o_Tp l) Tp -> 0 < Tp -> settled_within d th p U (Om * PI / 30 * r) l) ->
  y_P y <= betz / (1 - d) ^ 3 * wind_power (g_rho g) U (PI * (g_Rtip g ^ 2 - g_Rhub g ^ 2)).
Proof. exact betz_power_tol. Qed.
Print Assumptions C109_power.

(** C109. The power coefficient of the same rotor. *)
Theorem C109_coefficient : forall d npi bq g b conds b' outs w i U Om p y, 0 <= d < 1 -> 3 < npi < PI -> root_inside bq ->
  construct g = Ok b -> flat_disc g -> 0 < g_rho g -> (forall c, In c (g_chord g) -> 0 <= c) -> Forall drags (g_af g) ->
  evaluate npi bq b conds = Ok (b', outs, w) -> nth_error conds i = Some (U, Om, p) -> nth_error outs i = Some (Some y) ->
  0 < U -> 0 < Om -> 0 < g_Rtip g ->
  (forall ls j l th r Tp, section_loads npi bq b U Om p 0 = Ok ls -> nth_error ls j = Some l -> nth_error (g_theta g) j = Some th ->
     nth_error (b_r b) j = Some r -> rep (o_Tp l) Tp -> 0 < Tp -> settled_within d th p U (Om * PI / 30 * r) l) ->
  y_CP y <= betz / (1 - d) ^ 3 * (1 - (g_Rhub g / g_Rtip g) ^ 2).
Proof. exact betz_coefficient_tol. Qed.
Print Assumptions C109_coefficient.

(** C109. How the error d relates to the residual that the root finder drives to zero: in the windmill state a residual
    of at most d sin phi closes the triangle up to d. *)
Theorem C109_residual : forall o B r chord Rhub Rtip phi cl cd Vx Vy fz a ap d,
  inside B r Rhub Rtip phi -> phi < PI / 2 -> 0 < Vx -> 0 < Vy -> 0 <= d ->
  0 <= loading o B r chord Rhub Rtip phi cl cd -> (wakerotation o = true -> loading_t o B r chord Rhub Rtip phi cl cd <> 1) ->
  inductionFactors o B r chord Rhub Rtip phi cl cd Vx Vy = (fz, a, ap) ->
  Rabs fz <= d * sin phi -> closes_within d Vx Vy phi a ap.
Proof. exact residual_closes. Qed.
Print Assumptions C109_residual.

(** The inner station of the rotor below: a residual that is not zero, and a triangle that closes up to a tenth. *)
Example C109_residual_example : exists fz a ap, inductionFactors plain 2 4 (2 * PI) 1 6 (PI / 4) (2 * sqrt 2) 0 1 (7 / 10) = (fz, a, ap) /\
  0 < fz <= 1 / 10 * sin (PI / 4) /\ a = 1 / 3 /\ closes_within (1 / 10) 1 (7 / 10) (PI / 4) a ap.
Proof.
  pose proof PI_RGT_0 as HP. destruct q2_sqr as (_ & Q).
  assert (Hin : inside 2 4 1 6 (PI / 4)) by (unfold inside; repeat split; try lra; lia).
  assert (K : loading plain 2 4 (2 * PI) 1 6 (PI / 4) (2 * sqrt 2) 0 = 1 / 2).
  { rewrite lift_loading, (lift2_A _ _ (1 / 2)) by lra. rewrite sin_PI4, cos_PI4. fold q2. field. lra. }
  destruct (inductionFactors plain 2 4 (2 * PI) 1 6 (PI / 4) (2 * sqrt 2) 0 1 (7 / 10)) as ((fz & a) & ap) eqn:E. exists fz, a, ap.
  pose proof E as E'. rewrite ind_pos in E' by exact Hin. rewrite K, axial_low in E' by lra. cbn [wakerotation plain] in E'.
  injection E'; clear E'; intros Eap Ea Ez. rewrite sin_PI4, cos_PI4 in *. fold q2 in *.
  assert (Ea' : a = 1 / 3) by (rewrite <- Ea; field). assert (Ez' : fz = q2 / 14) by (rewrite <- Ez; field).
  assert (B1 : 0 < fz <= 1 / 10 * q2) by lra. split; [reflexivity|]. split; [exact B1|]. split; [exact Ea'|].
  apply (C109_residual plain 2 4 (2 * PI) 1 6 (PI / 4) (2 * sqrt 2) 0 1 (7 / 10) fz a ap (1 / 10) Hin); try lra; [discriminate|exact E|].
  rewrite Rabs_right, sin_PI4 by lra. fold q2. lra.
Qed.

Lemma near_settled : forall npi p0 ls j l th r Tp, 3 < npi < PI -> p0 = 0 -> section_loads npi diagonal front_blade 1 (21 / 4 / PI) p0 0 = Ok ls -> nth_error ls j = Some l ->
  nth_error (g_theta front_args) j = Some th -> nth_error (b_r front_blade) j = Some r -> rep (o_Tp l) Tp -> 0 < Tp ->
  settled_within (1 / 20) th p0 1 (21 / 4 / PI * PI / 30 * r) l.
Proof.
  intros npi p0 ls j l th r Tp Hn -> E El Et Er _ _. destruct (near_power npi Hn) as (l0 & l1 & SL & A0 & A1 & _). rewrite SL in E. apply ok_inj in E. subst ls.
  destruct j as [|[|j]]; cbn in El, Et, Er; [| |destruct j; discriminate El]; injection El; intros <-; injection Et; intros <-; injection Er; intros <-; assumption.
Qed.

(** A rotor with a root finder that does not find zeros: the triangles of both stations miss by less than a twentieth. *)
Example C109_example : forall npi, 3 < npi < PI -> exists b' y w,
  root_inside diagonal /\ ~ finds_zeros diagonal /\ construct front_args = Ok front_blade /\ flat_disc front_args /\
  Forall drags (g_af front_args) /\ evaluate npi diagonal front_blade [(1, 21 / 4 / PI, 0)] = Ok (b', [Some y], w) /\
  0 < y_P y <= betz / (19 / 20) ^ 3 * wind_power 1 1 (PI * 35) /\ y_CP y <= betz / (19 / 20) ^ 3 * (35 / 36).
Proof.
  intros npi Hn. pose proof PI_RGT_0 as HP. destruct (near_power npi Hn) as (l0 & l1 & SL & A0 & A1 & b' & y & w & E & P0).
  pose proof (two_construct 4 5 (2 * PI) PI 1 6 ltac:(lra) ltac:(lra)) as EC. pose proof (two_disc 4 5 (2 * PI) PI 1 6 ltac:(lra) ltac:(lra)) as ED.
  assert (HC : forall c, In c (g_chord front_args) -> 0 <= c) by (intros c [<-|[<-|[]]]; lra).
  assert (HD : Forall drags (g_af front_args)) by (constructor; [exact lift2_drags|constructor; [exact lift2_drags|constructor]]).
  assert (HO : 0 < 21 / 4 / PI) by (apply Rdiv_lt_0_compat; lra). assert (D20 : 0 <= 1 / 20 < 1) by lra.
  exists b', y, w. split; [exact diagonal_inside|]. split; [exact diagonal_careless|]. split; [exact EC|]. split; [exact ED|]. split; [exact HD|]. split; [exact E|].
  assert (R1 : g_rho front_args = 1) by reflexivity.
  pose proof (C109_power (1 / 20) npi diagonal front_args front_blade [(1, 21 / 4 / PI, 0)] b' [Some y] w 0%nat 1 (21 / 4 / PI) 0 y D20 Hn diagonal_inside EC ED
    ltac:(rewrite R1; lra) HC HD E eq_refl eq_refl ltac:(lra) HO (fun ls j l th r Tp => near_settled npi 0 ls j l th r Tp Hn eq_refl)) as HPow.
  pose proof (C109_coefficient (1 / 20) npi diagonal front_args front_blade [(1, 21 / 4 / PI, 0)] b' [Some y] w 0%nat 1 (21 / 4 / PI) 0 y D20 Hn diagonal_inside EC ED
    ltac:(rewrite R1; lra) HC HD E eq_refl eq_refl ltac:(lra) HO ltac:(cbn; lra) (fun ls j l th r Tp => near_settled npi 0 ls j l th r Tp Hn eq_refl)) as HCo.
  cbn [g_rho g_Rtip g_Rhub front_args two_args] in HPow, HCo. replace (1 - 1 / 20) with (19 / 20) in HPow, HCo by field.
  split; [split; [exact P0|]|].
  - replace (6 ^ 2 - 1 ^ 2) with 35 in HPow by ring. exact HPow.
  - replace (1 - (1 / 6) ^ 2) with (35 / 36) in HCo by field. exact HCo.
Qed.
