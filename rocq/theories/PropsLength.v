(** Property theorems about arrays of the wrong length: C94. *)
From Coq Require Import Reals Bool Arith List Lra Lia.
From Verif Require Import Prelim Num Bem Interp InterpSpec BemDiff Blade BladeSpec FlProofs StationProofs BladeProofs SectorWitness TwistWitness LengthSpec LengthProofs PropsStation.
Import ListNotations.
Open Scope R_scope.

(** ** C94: the arrays of a rotor *)
(** The constructor: an empty precurve or presweep is an IndexError, one of the wrong length that ends with the value of
    the tip a ValueError. *)
Theorem C94_constructor_raises : forall g l, (2 <= length (g_r g))%nat ->
  (g_precurve g = Some [] -> construct g = Raise IndexError) /\
  (g_precurve g = Some l -> l <> [] -> length l <> length (g_r g) -> g_precurveTip g = last l 0 -> construct g = Raise ValueError) /\
  (harmless (g_r g) (g_precurve g) (g_precurveTip g) ->
     (g_presweep g = Some [] -> construct g = Raise IndexError) /\
     (g_presweep g = Some l -> l <> [] -> length l <> length (g_r g) -> g_presweepTip g = last l 0 -> construct g = Raise ValueError)).
Proof.
  intros g l HL. split; [exact (empty_precurve g HL)|]. split; [exact (long_precurve g l HL)|]. intros HP. split.
  - intros E. apply (bad_presweep g [] IndexError HL HP E). left. auto.
  - intros E H1 H2 H3. apply (bad_presweep g l ValueError HL HP E). right. auto.
Qed.
Print Assumptions C94_constructor_raises.

(** Any other wrong length is accepted by the constructor, and every call of the object then raises. *)
Theorem C94_curve_refused : forall npi bq g,
  ((2 <= length (g_r g))%nat -> harmless (g_r g) (g_precurve g) (g_precurveTip g) -> harmless (g_r g) (g_presweep g) (g_presweepTip g) ->
     exists b, construct g = Ok b) /\
  forall b, construct g = Ok b -> ~ right_length (g_r g) (g_precurve g) \/ ~ right_length (g_r g) (g_presweep g) ->
    (forall U Om p az, distributedAeroLoads npi bq b U Om p az = Raise OtherException) /\
    (forall c conds, evaluate npi bq b (c :: conds) = Raise OtherException).
Proof.
  intros npi bq g. split; [exact (accepted g)|]. intros b E H. apply (wrong_curve npi bq g b E). unfold right_length in H.
  destruct (g_precurve g) as [l1|], (g_presweep g) as [l2|]; destruct H as [H|H]; try tauto; eauto.
Qed.
Print Assumptions C94_curve_refused.

(** Too few chords, twists or airfoils: no call returns; with a turning rotor and a root finder that raises nothing but
    ValueError it is an IndexError. *)
Theorem C94_too_few : forall npi bq g b, construct g = Ok b -> right_length (g_r g) (g_precurve g) -> right_length (g_r g) (g_presweep g) ->
  (complete_stations g < length (g_r g))%nat ->
  (forall U Om p az b' ls, distributedAeroLoads npi bq b U Om p az <> Ok (b', ls)) /\
  (only_value_error bq -> (1 <= g_iterRe g)%nat -> forall U Om p, Om <> 0 ->
     (forall az, distributedAeroLoads npi bq b U Om p az = Raise IndexError) /\
     (forall conds, evaluate npi bq b ((U, Om, p) :: conds) = Raise IndexError)).
Proof. exact too_few_given. Qed.
Print Assumptions C94_too_few.

(** Two stations; precurve of three values, with tip value 1 or 2; presweep of one; a missing airfoil. *)
Definition len_args (pc : option (list R)) (pct : R) (ps : option (list R)) (af : list (airfoil fl)) : args :=
  mkArgs [1; 2] [1; 1] [0; 0] af (1 / 2) 3 3 1 1 0 0 0 0 80 8 pc pct ps 0 (mkOpts true true true true) 1.
Example C94_example : forall af,
  construct (len_args (Some [0; 0; 1]) 1 None [af; af]) = Raise ValueError /\
  (exists b, construct (len_args (Some [0; 0; 1]) 2 None [af; af]) = Ok b) /\
  ~ right_length [1; 2] (Some [0; 0; 1]) /\
  construct (len_args None 0 (Some [0]) [af; af]) = Raise ValueError /\
  (exists b, construct (len_args None 0 None [af]) = Ok b /\ (complete_stations (len_args None 0 None [af]) < 2)%nat).
Proof.
  intros af. split; [|split; [|split; [|split]]].
  - apply (proj1 (proj2 (C94_constructor_raises (len_args (Some [0; 0; 1]) 1 None [af; af]) [0; 0; 1] ltac:(cbn; lia)))); [reflexivity|discriminate|discriminate|reflexivity].
  - apply (proj1 (C94_curve_refused 3 midpoint (len_args (Some [0; 0; 1]) 2 None [af; af]))); [cbn; lia| |exact I].
    cbn. split; [discriminate|]. left. lra.
  - cbn. discriminate.
  - apply (C94_constructor_raises (len_args None 0 (Some [0]) [af; af]) [0]); [cbn; lia|exact I|reflexivity|discriminate|discriminate|reflexivity].
  - destruct (proj1 (C94_curve_refused 3 midpoint (len_args None 0 None [af]))) as (b & E); [cbn; lia|exact I|exact I|].
    exists b. split; [exact E|]. cbn. lia.
Qed.
