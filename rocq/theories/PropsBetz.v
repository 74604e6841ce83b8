(** Properties C101 and C102: the Betz limit.

    Anchors: ccblade/ccblade.py CCBlade.evaluate and __runBEM; ccblade/src/bem.f90 inductionFactors. *)
From Coquelicot Require Import Coquelicot.
From Coq Require Import Reals Bool Arith List Lra Lia.
From Verif Require Import Prelim Num CSystemSpec Bem Blade BladeSpec FlProofs StationProofs ConstructProofs SectorProofs SimilaritySpec InverseForward InverseWitness
  BetzSpec BetzRotor BetzWitness IdealRoot StationLoads.
Import ListNotations.
Open Scope R_scope.

(** C101. The power reported by [evaluate] for a flat disc of draggy airfoils, with inflow angles up to 90
    degrees, is at most 16/27 of the power of the wind through the ring between hub and tip. The losses, the
    swirl, the drag, the number of blades, the chords and the airfoils are arbitrary. *)
Theorem C101_power : forall npi bq g b conds b' outs w i U Om p y, 3 < npi < PI -> root_inside bq -> finds_zeros bq ->
  construct g = Ok b -> flat_disc g -> 0 <= g_rho g -> (forall c, In c (g_chord g) -> 0 <= c) -> Forall drags (g_af g) ->
  evaluate npi bq b conds = Ok (b', outs, w) -> nth_error conds i = Some (U, Om, p) -> nth_error outs i = Some (Some y) ->
  0 < U -> 0 < Om ->
  (forall ls j l th al, section_loads npi bq b U Om p 0 = Ok ls -> nth_error ls j = Some l -> nth_error (g_theta g) j = Some th ->
     rep (o_alpha l) al -> radians (al + th + p) <= npi / 2) ->
  y_P y <= betz * wind_power (g_rho g) U (PI * (g_Rtip g ^ 2 - g_Rhub g ^ 2)).
Proof. exact betz_power. Qed.
Print Assumptions C101_power.

(** C101. The power coefficient of the same rotor. *)
Theorem C101_coefficient : forall npi bq g b conds b' outs w i U Om p y, 3 < npi < PI -> root_inside bq -> finds_zeros bq ->
  construct g = Ok b -> flat_disc g -> 0 < g_rho g -> (forall c, In c (g_chord g) -> 0 <= c) -> Forall drags (g_af g) ->
  evaluate npi bq b conds = Ok (b', outs, w) -> nth_error conds i = Some (U, Om, p) -> nth_error outs i = Some (Some y) ->
  0 < U -> 0 < Om -> 0 < g_Rtip g ->
  (forall ls j l th al, section_loads npi bq b U Om p 0 = Ok ls -> nth_error ls j = Some l -> nth_error (g_theta g) j = Some th ->
     rep (o_alpha l) al -> radians (al + th + p) <= npi / 2) ->
  y_CP y <= betz * (1 - (g_Rhub g / g_Rtip g) ^ 2).
Proof. exact betz_coefficient. Qed.
Print Assumptions C101_coefficient.

Lemma front_angle : forall npi p0 ls j l th al, 3 < npi < PI -> p0 = 0 -> section_loads npi quarter front_blade 1 (5 / PI) p0 0 = Ok ls -> nth_error ls j = Some l ->
  nth_error (g_theta front_args) j = Some th -> rep (o_alpha l) al -> radians (al + th + p0) <= npi / 2.
Proof.
  intros npi p0 ls j l th al Hn -> E El Et Ra. destruct (front_power npi Hn) as (l0 & l1 & SL & A0 & A1 & _). rewrite SL in E. apply ok_inj in E. subst ls.
  assert (H : al = 45 /\ th = 0).
  { destruct j as [|[|j]]; cbn in El, Et; [| |destruct j; discriminate El].
    - injection El; intros <-. injection Et; intros <-. split; [exact (rep_fun _ _ _ Ra A0)|reflexivity].
    - injection El; intros <-. injection Et; intros <-. split; [exact (rep_fun _ _ _ Ra A1)|reflexivity]. }
  destruct H as (-> & ->). unfold radians. pose proof PI_below. lra.
Qed.

Example C101_example : forall npi, 3 < npi < PI -> exists b' y w,
  root_inside quarter /\ finds_zeros quarter /\ construct front_args = Ok front_blade /\ flat_disc front_args /\
  Forall drags (g_af front_args) /\ evaluate npi quarter front_blade [(1, 5 / PI, 0)] = Ok (b', [Some y], w) /\
  0 < y_P y <= betz * wind_power 1 1 (PI * 35) /\ y_CP y <= betz * (35 / 36).
Proof.
  intros npi Hn. pose proof PI_RGT_0 as HP. destruct (front_power npi Hn) as (l0 & l1 & SL & A0 & A1 & b' & y & w & E & P0).
  pose proof (two_construct 4 5 (2 * PI) PI 1 6 ltac:(lra) ltac:(lra)) as EC. pose proof (two_disc 4 5 (2 * PI) PI 1 6 ltac:(lra) ltac:(lra)) as ED.
  assert (HC : forall c, In c (g_chord front_args) -> 0 <= c) by (intros c [<-|[<-|[]]]; lra).
  assert (HD : Forall drags (g_af front_args)) by (constructor; [exact lift2_drags|constructor; [exact lift2_drags|constructor]]).
  assert (HO : 0 < 5 / PI) by (apply Rdiv_lt_0_compat; lra).
  exists b', y, w. split; [exact quarter_inside|]. split; [exact quarter_zeros|]. split; [exact EC|]. split; [exact ED|]. split; [exact HD|]. split; [exact E|].
  assert (R1 : g_rho front_args = 1) by reflexivity.
  pose proof (C101_power npi quarter front_args front_blade [(1, 5 / PI, 0)] b' [Some y] w 0%nat 1 (5 / PI) 0 y Hn quarter_inside quarter_zeros EC ED
    ltac:(rewrite R1; lra) HC HD E eq_refl eq_refl ltac:(lra) HO (fun ls j l th al => front_angle npi 0 ls j l th al Hn eq_refl)) as HPow.
  pose proof (C101_coefficient npi quarter front_args front_blade [(1, 5 / PI, 0)] b' [Some y] w 0%nat 1 (5 / PI) 0 y Hn quarter_inside quarter_zeros EC ED
    ltac:(rewrite R1; lra) HC HD E eq_refl eq_refl ltac:(lra) HO ltac:(cbn; lra) (fun ls j l th al => front_angle npi 0 ls j l th al Hn eq_refl)) as HCo.
  cbn [g_rho g_Rtip g_Rhub front_args two_args] in HPow, HCo.
  split; [split; [exact P0|]|].
  - replace (6 ^ 2 - 1 ^ 2) with 35 in HPow by ring. exact HPow.
  - replace (1 - (1 / 6) ^ 2) with (35 / 36) in HCo by field. exact HCo.
Qed.

(** C102, the claim: the limit holds whatever the angle of the inflow. *)
Definition betz_always (npi : R) (bq : rootfinder fl) : Prop := forall g b conds b' outs w i U Om p y,
  construct g = Ok b -> flat_disc g -> 0 <= g_rho g -> (forall c, In c (g_chord g) -> 0 <= c) -> Forall drags (g_af g) ->
  evaluate npi bq b conds = Ok (b', outs, w) -> nth_error conds i = Some (U, Om, p) -> nth_error outs i = Some (Some y) ->
  0 < U -> 0 < Om -> y_P y <= betz * wind_power (g_rho g) U (PI * (g_Rtip g ^ 2 - g_Rhub g ^ 2)).

(** C102. It is false with any root finder that finds the zeros of continuous residuals: two stations of constant lift
    coefficient and no drag settle at 135 degrees and report 39 times the limit. *)
Theorem C102_betz_always_refuted : forall npi bq, 3 < npi < PI -> root_inside bq -> finds_zeros bq -> accepts_continuous bq ->
  ~ betz_always npi bq.
Proof.
  intros npi bq Hn Hb Hz Ha H. pose proof PI_RGT_0 as HP. destruct (back_power npi bq 0 Hn Hb Hz Ha) as (b' & y & w & E & EP).
  pose proof (two_construct 1 2 (2 * PI) (3 * PI) (1 / 2) 3 ltac:(lra) ltac:(lra)) as EC.
  pose proof (two_disc 1 2 (2 * PI) (3 * PI) (1 / 2) 3 ltac:(lra) ltac:(lra)) as ED.
  assert (HC : forall c, In c (g_chord back_args) -> 0 <= c) by (intros c [<-|[<-|[]]]; lra).
  assert (HD : Forall drags (g_af back_args)) by (constructor; [exact lift2_drags|constructor; [exact lift2_drags|constructor]]).
  assert (HO : 0 < 30 / PI) by (apply Rdiv_lt_0_compat; lra). assert (R1 : g_rho back_args = 1) by reflexivity.
  pose proof (H back_args back_blade [(1, 30 / PI, 0)] b' [Some y] w 0%nat 1 (30 / PI) 0 y EC ED ltac:(rewrite R1; lra) HC HD E eq_refl eq_refl ltac:(lra) HO) as HP2.
  rewrite EP in HP2. cbn [g_rho g_Rtip g_Rhub back_args two_args] in HP2. unfold betz, wind_power in HP2. nra.
Qed.
Print Assumptions C102_betz_always_refuted.

(** The root finder of the intermediate value theorem meets the premises of C102. *)
Example C102_example : root_inside ideal /\ finds_zeros ideal /\ accepts_continuous ideal.
Proof. exact (conj ideal_inside (conj ideal_zeros ideal_accepts)). Qed.
