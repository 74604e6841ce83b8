(** C121: the components given an empty precurve.

    Anchors: ccblade/ccblade_component.py CCBladeLoads.compute, CCBladeEvaluate.compute, CCBladeEvaluate.compute_partials. *)
From Coquelicot Require Import Coquelicot.
From Coq Require Import Reals Bool Arith List Lra Lia.
From Verif Require Import Prelim Num Bem BemDiff Blade BladeDiff InterpSpec Component ComponentWitness StraightProofs.
Import ListNotations.
Open Scope R_scope.

(** An empty precurve stands for one of zeros, in values and derivatives. *)
Theorem C121_loads : forall npi bq i, li_precurve i = [] ->
  loads_compute npi bq i = loads_compute npi bq (load_precurve i (map (fun _ => 0) (li_r i))).
Proof. intros npi bq i H. unfold loads_compute, load_rotor. rewrite H, fill_zeros. reflexivity. Qed.
Print Assumptions C121_loads.

Theorem C121_evaluate : forall npi bq i, ei_precurve i = [] ->
  eval_compute npi bq i = eval_compute npi bq (eval_precurve i (map (fun _ => 0) (ei_r i))) /\
  eval_partials npi bq i = eval_partials npi bq (eval_precurve i (map (fun _ => 0) (ei_r i))).
Proof. intros npi bq i H. unfold eval_compute, eval_partials, eval_rotor. rewrite H, fill_zeros. split; reflexivity. Qed.
Print Assumptions C121_evaluate.

(** With the tip on the axis as well, the blade is straight, and is the one CCBlade builds when called without precurve. *)
Theorem C121_straight_loads : forall i fx D, li_precurve i = [] -> li_precurveTip i = 0 -> increasing (li_r i) ->
  object (load_rotor i) = Ok (fx, D) ->
  (forall k, x_precurve D k = 0) /\ x_precurveTip D = 0 /\
  construct (ri_args (load_rotor i)) = construct (no_precurve (ri_args (load_rotor i))).
Proof.
  intros i fx D H1 H2 I E. assert (P : g_precurve (ri_args (load_rotor i)) = Some (map (fun _ => 0) (g_r (ri_args (load_rotor i))))) by (cbn [load_rotor ri_args g_precurve g_r]; rewrite H1; reflexivity).
  destruct (rotor_straight _ fx D E I P H2) as (A & B). exact (conj A (conj B (zeros_none _ P H2))).
Qed.
Print Assumptions C121_straight_loads.
Theorem C121_straight_evaluate : forall i fx D, ei_precurve i = [] -> ei_precurveTip i = 0 -> increasing (ei_r i) ->
  object (eval_rotor i) = Ok (fx, D) ->
  (forall k, x_precurve D k = 0) /\ x_precurveTip D = 0 /\
  construct (ri_args (eval_rotor i)) = construct (no_precurve (ri_args (eval_rotor i))).
Proof.
  intros i fx D H1 H2 I E. assert (P : g_precurve (ri_args (eval_rotor i)) = Some (map (fun _ => 0) (g_r (ri_args (eval_rotor i))))) by (cbn [eval_rotor ri_args g_precurve g_r]; rewrite H1; reflexivity).
  destruct (rotor_straight _ fx D E I P H2) as (A & B). exact (conj A (conj B (zeros_none _ P H2))).
Qed.
Print Assumptions C121_straight_evaluate.

(** An empty presweep is not replaced: CCBladeEvaluate raises IndexError. *)
Theorem C121_presweep : forall npi bq i, ei_presweep i = [] -> (2 <= length (ei_r i))%nat ->
  ei_precurve i = [] \/ length (ei_precurve i) = length (ei_r i) ->
  eval_compute npi bq i = Raise IndexError /\ eval_partials npi bq i = Raise IndexError.
Proof.
  intros npi bq i H1 H2 H3. assert (X : object (eval_rotor i) = Raise IndexError).
  { apply sweep_needed; [cbn [eval_rotor ri_args g_presweep]; rewrite H1; reflexivity|exact H2|].
    cbn [eval_rotor ri_args g_precurve g_r]. intros l E. injection E; intros <-. destruct (ei_precurve i); [apply map_length|]. destruct H3; [discriminate|assumption]. }
  unfold eval_compute, eval_partials. rewrite X. split; reflexivity.
Qed.
Print Assumptions C121_presweep.

(** A rotor with two stations, given no precurve. *)
Definition plain (pc : list R) : load_in :=
  mkLoadIn [1; 2] [1; 1] [0; 0] (1 / 2) 3 80 0 0 0 pc 0 2 1 1 0 8 (mkOpts true true true true) 1 1 0 0 (fun _ _ _ => (0, 1)) (fun _ _ _ => (0, 0, 0, 0)).
Example C121_example : li_precurve (plain []) = [] /\ li_precurveTip (plain []) = 0 /\ increasing (li_r (plain [])) /\
  exists fx D, object (load_rotor (plain [])) = Ok (fx, D).
Proof.
  refine (conj eq_refl (conj eq_refl (conj _ _))).
  - intros [|[|a]] [|[|b]] H; cbn in H |- *; try lia; lra.
  - unfold object, construct. cbn [load_rotor ri_args g_r plain li_r length Nat.ltb Nat.leb g_precurve fill_precurve map g_presweep curve_error tip_error Nat.eqb andb negb bind li_precurve].
    do 2 eexists. reflexivity.
Qed.
(** A curved blade is another rotor: the tip station of the design is not on the axis. *)
Example C121_other : exists fx D, object (load_rotor (plain [0; 1])) = Ok (fx, D) /\ x_precurve D 1%nat = 1.
Proof.
  unfold object, construct. cbn [load_rotor ri_args g_r plain li_r length Nat.ltb Nat.leb g_precurve fill_precurve map g_presweep curve_error tip_error Nat.eqb andb negb bind li_precurve g_precurveTip li_precurveTip last].
  replace (reqb 0 1) with false by (symmetry; apply reqb_false; lra). do 2 eexists. split; reflexivity.
Qed.
