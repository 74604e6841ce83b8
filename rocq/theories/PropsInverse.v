(** Property theorems about inverse design followed by analysis: C42. *)
From Coquelicot Require Import Coquelicot.
From Coq Require Import Reals Bool Arith List Lra Lia.
From Verif Require Import Prelim Num Bem BemDiff Blade BladeSpec FlProofs StationProofs Component SectorWitness InverseForward InverseWitness.
Import ListNotations.
Open Scope R_scope.

(** C42: the inflow angle behind the stored twist solves the equations of analysis with that twist, if the airfoil has the
    requested coefficients at the requested angle (and the root finder finds zeros; a stored twist from a failed solve has inflow angle 0). *)
Theorem C42_solves : forall npi bq b U Om p az b' ls i r c af cl cd al t,
  1 / 10 < npi -> root_inside bq -> finds_zeros bq -> b_inverse b = true -> Om <> 0 ->
  distributedAeroLoads npi bq b U Om p az = Ok (b', ls) ->
  nth_error (b_r b) i = Some r -> nth_error (b_chord b) i = Some c -> nth_error (b_af b) i = Some af ->
  nth_error (b_cl b) i = Some cl -> nth_error (b_cd b) i = Some cd -> nth_error (b_alpha b) i = Some al ->
  (forall al' Re', rep al' al -> af al' Re' = (Fin cl, Fin cd)) ->
  rep (nth i (b_theta b') NaN) t -> t + al + radians p <> 0 ->
  exists m, b_iterRe b' = S m /\
  let V := wind b' U Om (radians az) in
  rep (errf (rotor_of b' (radians p)) (mkSect (Fin r) (Fin c) (nth i (b_theta b') NaN) af (Fin (fst V i)) (Fin (snd V i))) m
    (Fin (t + al + radians p))) 0 /\ - npi / 4 <= t + al + radians p <= npi.
Proof. exact inverse_solves. Qed.
Print Assumptions C42_solves.

(** C42: analysing the designed blade at the same operating point gives the requested angle of attack, unless that
    equation has two solutions in the searched range, the root finder refuses, or the station reports zero loads. *)
Theorem C42_designed_angle : forall npi bq b U Om p az b' ls b2 ls2 i r c af cl cd al t l,
  1 / 10 < npi -> root_inside bq -> finds_zeros bq -> b_inverse b = true -> Om <> 0 ->
  distributedAeroLoads npi bq b U Om p az = Ok (b', ls) ->
  distributedAeroLoads npi bq (as_designed b') U Om p az = Ok (b2, ls2) ->
  nth_error (b_r b) i = Some r -> nth_error (b_chord b) i = Some c -> nth_error (b_af b) i = Some af ->
  nth_error (b_cl b) i = Some cl -> nth_error (b_cd b) i = Some cd -> nth_error (b_alpha b) i = Some al ->
  (forall al' Re', rep al' al -> af al' Re' = (Fin cl, Fin cd)) ->
  rep (nth i (b_theta b') NaN) t -> t + al + radians p <> 0 ->
  let V := wind b' U Om (radians az) in
  let sc := mkSect (Fin r) (Fin c) (nth i (b_theta b') NaN) af (Fin (fst V i)) (Fin (snd V i)) in
  nth_error ls2 i = Some l ->
  rep (o_alpha l) (degrees al) \/ (o_Np l = Fin 0 /\ o_Tp l = Fin 0 /\ o_alpha l = Fin 0) \/
  exists m, b_iterRe b' = S m /\
    ((exists v v', v <> v' /\ - npi / 4 <= v <= npi /\ - npi / 4 <= v' <= npi /\
       rep (errf (rotor_of b' (radians p)) sc m (Fin v)) 0 /\ rep (errf (rotor_of b' (radians p)) sc m (Fin v')) 0) \/
     (exists lo hi, documented_bracket npi (errf (rotor_of b' (radians p)) sc m) lo hi /\
       bq (errf (rotor_of b' (radians p)) sc m) (Fin lo) (Fin hi) = Raise ValueError)).
Proof. exact designed_angle. Qed.
Print Assumptions C42_designed_angle.

(** A design for 1/10 rad whose first station has inflow angle pi/4, followed by its analysis. *)
Example C42_designed_example : forall npi, 3 < npi < PI -> root_inside quarter /\ finds_zeros quarter /\ b_inverse q_blade = true /\ 30 / PI <> 0 /\
  exists b' ls b2 ls2 t l, distributedAeroLoads npi quarter q_blade 1 (30 / PI) 0 0 = Ok (b', ls) /\
    distributedAeroLoads npi quarter (as_designed b') 1 (30 / PI) 0 0 = Ok (b2, ls2) /\
    rep (nth 0 (b_theta b') NaN) t /\ t + 1 / 10 + radians 0 <> 0 /\ nth_error ls2 0 = Some l /\
    (forall al' Re', rep al' (1 / 10) -> drag_af al' Re' = (Fin 0, Fin 1)).
Proof.
  intros npi Hn. split; [exact quarter_inside|]. split; [exact quarter_zeros|]. split; [reflexivity|].
  split; [apply reqb_false, q_omega|].
  destruct (q_design npi 0 Hn) as (b' & l0 & l1 & E & Rt & Hl & Eb). destruct (q_analysis npi b' 0 Eb Hl) as (b2 & ls2 & E2 & L2).
  destruct ls2 as [|l ls2]; [discriminate L2|].
  exists b', [l0; l1], b2, (l :: ls2), (PI / 4 - 1 / 10 - radians 0), l. pose proof PI_RGT_0.
  refine (conj E (conj E2 (conj Rt (conj _ (conj eq_refl _))))); [lra|reflexivity].
Qed.
