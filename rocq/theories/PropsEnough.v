(** Property C105: calls of a rotor with complete data.

    Anchors: ccblade/ccblade.py CCBlade.__init__, distributedAeroLoads, evaluate. *)
From Coq Require Import Reals Bool Arith List Lra Lia.
From Verif Require Import Prelim Num Bem Blade BladeSpec FlProofs TwistWitness LengthSpec LengthProofs EnoughProofs PropsStation PropsComponent.
Import ListNotations.
Open Scope R_scope.

(** C105. With a chord, a twist and an airfoil for each station, and precurve and presweep of the right length, a turning
    rotor can be called with any wind, speed, pitch and azimuth: a load per station, and an output per condition with a
    speed per station. The airfoils are arbitrary: they may give infinities or NaN. *)
Theorem C105_calls_return : forall npi bq, only_value_error bq -> forall g b, construct g = Ok b ->
  right_length (g_r g) (g_precurve g) -> right_length (g_r g) (g_presweep g) ->
  (length (g_r g) <= complete_stations g)%nat -> (1 <= g_iterRe g)%nat ->
  (forall U Om p az, Om <> 0 -> exists b' ls, distributedAeroLoads npi bq b U Om p az = Ok (b', ls) /\ length ls = length (g_r g)) /\
  (forall conds, conds <> [] -> Forall (fun c : R * R * R => snd (fst c) <> 0) conds ->
     exists b' outs W, evaluate npi bq b conds = Ok (b', outs, W) /\ length outs = length conds /\ length W = length (g_r g)).
Proof. exact complete_returns. Qed.
Print Assumptions C105_calls_return.

(** C105. Without any condition evaluate raises a NameError. *)
Theorem C105_no_condition : forall npi bq b, evaluate npi bq b [] = Raise NameError.
Proof. exact no_condition. Qed.
Print Assumptions C105_no_condition.

(** Airfoils that return NaN. *)
Example C105_example : exists b' outs W, evaluate (31 / 10) midpoint (w_blade (fun _ _ => (NaN, NaN))) [(1, 30 / PI, 0); (-2, 5, 3)] = Ok (b', outs, W) /\
  length outs = 2%nat /\ length W = 2%nat.
Proof.
  pose proof PI_RGT_0 as HP. pose proof (w_construct (fun _ _ => (NaN, NaN))) as EC.
  destruct (C105_calls_return (31 / 10) midpoint midpoint_tame _ _ EC I I ltac:(cbn; lia) ltac:(cbn; lia)) as (_ & H).
  apply (H [(1, 30 / PI, 0); (-2, 5, 3)]); [discriminate|].
  constructor; [cbn; apply Rgt_not_eq, Rdiv_lt_0_compat; lra|]. constructor; [cbn; lra|]. constructor.
Qed.
