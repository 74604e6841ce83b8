(** C119, C120: rotors of sections without lift. *)
From Coquelicot Require Import Coquelicot.
From Coq Require Import Reals Bool Arith List Lra Lia Psatz.
From Verif Require Import Prelim Num Bem Blade BladeSpec FlProofs BladeProofs StationProofs StationLoads SimilaritySpec InverseForward BetzSpec BetzStation BetzRotor BetzWitness SectorWitness InterpSpec DragSpec DragStation DragRotor DragWitness.
Import ListNotations.
Open Scope R_scope.

(** ** C119. Where wind and rotation have the same sign, drag never drives a section *)
Theorem C119_section npi bq g b U Om p az ls i l Tp : 3 < npi < PI -> root_inside bq -> finds_zeros bq ->
  construct g = Ok b -> in_order g -> 0 <= g_rho g -> (forall c, In c (g_chord g) -> 0 <= c) -> Forall no_lift (g_af g) -> Om <> 0 ->
  section_loads npi bq b U Om p az = Ok ls -> nth_error ls i = Some l -> rep (o_Tp l) Tp ->
  0 < fst (wind b U Om (radians az)) i * snd (wind b U Om (radians az)) i -> Tp <= 0.
Proof. intros H1 H2 H3 H4 H5 H6 H7 H8 H9 H10 H11 H12. exact (proj1 (drag_section npi bq g b U Om p az ls i l Tp H1 H2 H3 H4 H5 H6 H7 H8 H9 H10 H11 H12)). Qed.
Print Assumptions C119_section.

Theorem C119_power npi bq g b conds b' outs w i U Om p y : 3 < npi < PI -> root_inside bq -> finds_zeros bq ->
  construct g = Ok b -> flat_disc g -> 0 <= g_rho g -> (forall c, In c (g_chord g) -> 0 <= c) -> Forall no_lift (g_af g) ->
  evaluate npi bq b conds = Ok (b', outs, w) -> nth_error conds i = Some (U, Om, p) -> nth_error outs i = Some (Some y) ->
  0 < U -> 0 < Om -> y_P y <= 0.
Proof.
  intros H1 H2 H3 H4 H5 H6 H7 H8 H9 H10 H11 HU HO.
  exact (proj1 (drag_power npi bq g b conds b' outs w i U Om p y H1 H2 H3 H4 H5 H6 H7 H8 H9 H10 H11 (Rgt_not_eq _ _ HO) (or_introl (Rmult_lt_0_compat _ _ HU HO))) HU).
Qed.
Print Assumptions C119_power.

Lemma drag_hyps u v : 0 < v < PI ->
  construct (drag_args u v) = Ok (drag_blade u v) /\ flat_disc (drag_args u v) /\ 0 <= g_rho (drag_args u v) /\
  (forall c, In c (g_chord (drag_args u v)) -> 0 <= c) /\ Forall no_lift (g_af (drag_args u v)).
Proof.
  intros Hv. refine (conj (dr_construct u v) (conj (dr_disc u v) (conj _ (conj _ _)))).
  - cbn. lra.
  - intros c [<-|[<-|[]]]; apply Rlt_le, dw_chord; (assumption || lra).
  - repeat constructor; apply drag_no_lift.
Qed.

(** A rotor with drag coefficient one in wind from the front: all premises hold and the power is negative. *)
Example C119_example npi p : 3 < npi < PI ->
  root_inside (probe (PI / 4)) /\ finds_zeros (probe (PI / 4)) /\
  construct (drag_args false (PI / 4)) = Ok (drag_blade false (PI / 4)) /\ flat_disc (drag_args false (PI / 4)) /\
  (forall c, In c (g_chord (drag_args false (PI / 4))) -> 0 <= c) /\ Forall no_lift (g_af (drag_args false (PI / 4))) /\
  exists b' y w, evaluate npi (probe (PI / 4)) (drag_blade false (PI / 4)) [(1, 30 / PI, p)] = Ok (b', [Some y], w) /\ y_P y < 0.
Proof.
  intros Hn. pose proof PI_RGT_0 as HP. destruct (drag_hyps false (PI / 4) ltac:(lra)) as (H1 & H2 & _ & H3 & H4).
  exact (conj (probe_inside _) (conj (probe_zeros _) (conj H1 (conj H2 (conj H3 (conj H4 (front_braked npi p Hn))))))).
Qed.

(** ** C120 is refuted: in wind from behind drag alone drives the rotor *)
Theorem C120_drag_brakes_refuted : ~ (forall npi bq g b U Om p b' y w, 3 < npi < PI -> root_inside bq -> finds_zeros bq ->
  construct g = Ok b -> flat_disc g -> 0 <= g_rho g -> (forall c, In c (g_chord g) -> 0 <= c) -> Forall no_lift (g_af g) ->
  g_opts g = mkOpts true true true true -> evaluate npi bq b [(U, Om, p)] = Ok (b', [Some y], w) -> U <> 0 -> 0 < Om -> y_P y <= 0).
Proof.
  intros A. pose proof PI_RGT_0 as HP. pose proof PI2_3_2 as HP3. assert (Hn : 3 < (3 + PI) / 2 < PI) by lra.
  destruct (behind_driven _ 0 Hn) as (b' & y & w & E & HY). destruct (drag_hyps true (3 * (PI / 4)) ltac:(lra)) as (H1 & H2 & H3 & H4 & H5).
  pose proof (A _ _ _ _ _ _ _ _ _ _ Hn (probe_inside _) (probe_zeros _) H1 H2 H3 H4 H5 eq_refl E ltac:(lra) ltac:(apply Rdiv_lt_0_compat; lra)). lra.
Qed.
Print Assumptions C120_drag_brakes_refuted.

(** What holds: with a loss correction and wake rotation, as by default, the sign of the power is that of the wind reversed. *)
Theorem C120_power_sign npi bq g b conds b' outs w i U Om p y : 3 < npi < PI -> root_inside bq -> finds_zeros bq ->
  construct g = Ok b -> flat_disc g -> 0 <= g_rho g -> (forall c, In c (g_chord g) -> 0 <= c) -> Forall no_lift (g_af g) ->
  losses (g_opts g) -> wakerotation (g_opts g) = true ->
  evaluate npi bq b conds = Ok (b', outs, w) -> nth_error conds i = Some (U, Om, p) -> nth_error outs i = Some (Some y) ->
  Om <> 0 -> (0 < U -> y_P y <= 0) /\ (U < 0 -> 0 <= y_P y).
Proof.
  intros H1 H2 H3 H4 H5 H6 H7 H8 HL HW H9 H10 H11 HO.
  exact (drag_power npi bq g b conds b' outs w i U Om p y H1 H2 H3 H4 H5 H6 H7 H8 H9 H10 H11 HO (or_intror (conj HL HW))).
Qed.
Print Assumptions C120_power_sign.

(** The same section by section, for any blade shape, cone, tilt, yaw and shear. *)
Theorem C120_section npi bq g b U Om p az ls i l Tp : 3 < npi < PI -> root_inside bq -> finds_zeros bq ->
  construct g = Ok b -> in_order g -> 0 <= g_rho g -> (forall c, In c (g_chord g) -> 0 <= c) -> Forall no_lift (g_af g) -> Om <> 0 ->
  losses (g_opts g) -> wakerotation (g_opts g) = true ->
  section_loads npi bq b U Om p az = Ok ls -> nth_error ls i = Some l -> rep (o_Tp l) Tp ->
  fst (wind b U Om (radians az)) i * snd (wind b U Om (radians az)) i < 0 -> 0 <= Tp.
Proof.
  intros H1 H2 H3 H4 H5 H6 H7 H8 H9 HL HW H10 H11 H12 HV.
  exact (proj2 (drag_section npi bq g b U Om p az ls i l Tp H1 H2 H3 H4 H5 H6 H7 H8 H9 H10 H11 H12) HV HL HW).
Qed.
Print Assumptions C120_section.

(** The default options, wind from behind at one metre per second: all premises hold and the power is positive. *)
Example C120_example npi p : 3 < npi < PI ->
  root_inside (probe (3 * (PI / 4))) /\ finds_zeros (probe (3 * (PI / 4))) /\
  construct (drag_args true (3 * (PI / 4))) = Ok (drag_blade true (3 * (PI / 4))) /\ flat_disc (drag_args true (3 * (PI / 4))) /\
  (forall c, In c (g_chord (drag_args true (3 * (PI / 4)))) -> 0 <= c) /\ Forall no_lift (g_af (drag_args true (3 * (PI / 4)))) /\
  losses (g_opts (drag_args true (3 * (PI / 4)))) /\
  exists b' y w, evaluate npi (probe (3 * (PI / 4))) (drag_blade true (3 * (PI / 4))) [(-1, 30 / PI, p)] = Ok (b', [Some y], w) /\ 0 < y_P y.
Proof.
  intros Hn. pose proof PI_RGT_0 as HP. destruct (drag_hyps true (3 * (PI / 4)) ltac:(lra)) as (H1 & H2 & _ & H3 & H4).
  exact (conj (probe_inside _) (conj (probe_zeros _) (conj H1 (conj H2 (conj H3 (conj H4 (conj (or_introl eq_refl) (behind_driven npi p Hn)))))))).
Qed.
