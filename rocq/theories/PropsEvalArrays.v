(** Property C108: the lengths of the arrays given to evaluate.

    Anchors: ccblade/ccblade.py CCBlade.evaluate. *)
From Coq Require Import Reals Bool Arith List Lra Lia.
From Verif Require Import Prelim Num Bem Blade BladeSpec StationProofs SectorWitness TwistWitness LengthSpec LengthProofs EnoughProofs
  PropsStation PropsComponent EvalArrays EvalArraysProofs.
Import ListNotations.
Open Scope R_scope.

(** "A call that returns has one thrust and one power for each wind speed." *)
Definition one_power_each (npi : R) (bq : rootfinder fl) : Prop :=
  forall g b Us Oms ps b' ts P w, construct g = Ok b -> evaluate_arrays npi bq b Us Oms ps = Ok (b', ts, P, w) ->
    length ts = length Us /\ length P = length Us.

(** C108 is false: one wind speed and pitch with two rotor speeds gives one thrust and two powers. *)
Theorem C108_lengths_refuted : forall npi bq, 3 < npi < PI -> root_inside bq -> accepts_sign_change bq -> ~ one_power_each npi bq.
Proof.
  intros npi bq Hn H1 H2 H. destruct (d_evaluate npi bq 1 0 Hn H1 H2 ltac:(lia)) as (b' & y & w & E & _). change (with_sectors d_blade 1) with d_blade in E.
  pose proof (arrays_one npi bq d_blade 1 (30 / PI) [60 / PI] 0 []) as A. rewrite E in A. cbn [bind] in A.
  destruct (H _ _ _ _ _ _ _ _ _ d_construct A) as (_ & L). discriminate L.
Qed.
Print Assumptions C108_lengths_refuted.

(** C108, what holds. Arrays of equal length are evaluated condition by condition. *)
Theorem C108_equal_lengths : forall npi bq b Us Oms ps, length Us = length Oms -> length Us = length ps ->
  evaluate_arrays npi bq b Us Oms ps =
  bind (evaluate npi bq b (zip3 Us Oms ps)) (fun x => Ok (fst (fst x), map (option_map y_tot) (snd (fst x)), map (option_map y_P) (snd (fst x)), snd x)).
Proof. exact arrays_same. Qed.
Print Assumptions C108_equal_lengths.

(** C108, what holds. For a rotor with complete data and rotor speeds other than zero, the call returns exactly if there
    is a wind speed, there are at least as many pitch angles, and either as many rotor speeds or a single wind speed with at
    least one rotor speed. Pitch angles beyond the number of wind speeds are accepted. *)
Theorem C108_when : forall npi bq, only_value_error bq -> forall g b, construct g = Ok b ->
  right_length (g_r g) (g_precurve g) -> right_length (g_r g) (g_presweep g) ->
  (length (g_r g) <= complete_stations g)%nat -> (1 <= g_iterRe g)%nat ->
  forall Us Oms ps, Forall (fun x => x <> 0) Oms ->
  ((exists out, evaluate_arrays npi bq b Us Oms ps = Ok out) <->
   (1 <= length Us)%nat /\ (length Us <= length ps)%nat /\ (length Oms = length Us \/ (length Us = 1%nat /\ (1 <= length Oms)%nat))).
Proof.
  intros npi bq Hq g b E P1 P2 Hs HI Us Oms ps HO. destruct (ready_construct g b E P1 P2 Hs HI) as (HB & _). split.
  - intros ([[[b' ts] P] w] & H). destruct (arrays_need _ _ _ _ _ _ _ _ _ _ H) as (A & B & C & _). auto.
  - intros (A & B & C). apply ready_evaluate; assumption.
Qed.
Print Assumptions C108_when.

(** C108, what holds. The exceptions of the other lengths: too few rotor speeds or pitch angles, too many rotor speeds, no
    wind speed. *)
Theorem C108_errors : forall npi bq, only_value_error bq -> forall g b, construct g = Ok b ->
  right_length (g_r g) (g_precurve g) -> right_length (g_r g) (g_presweep g) ->
  (length (g_r g) <= complete_stations g)%nat -> (1 <= g_iterRe g)%nat ->
  forall Us Oms ps, Forall (fun x => x <> 0) Oms ->
  ((length Oms < length Us)%nat \/ (length ps < length Us)%nat -> evaluate_arrays npi bq b Us Oms ps = Raise IndexError) /\
  ((2 <= length Us)%nat -> (length Us < length Oms)%nat -> (length Us <= length ps)%nat -> evaluate_arrays npi bq b Us Oms ps = Raise ValueError) /\
  (Us = [] -> (length Oms <= 1)%nat -> evaluate_arrays npi bq b Us Oms ps = Raise NameError).
Proof.
  intros npi bq Hq g b E P1 P2 Hs HI Us Oms ps HO. destruct (ready_construct g b E P1 P2 Hs HI) as (HB & _). exact (ready_refused npi bq b Us Oms ps Hq HB HO).
Qed.
Print Assumptions C108_errors.

(** C108, what holds. There is one set of totals for each wind speed and one power for each rotor speed. *)
Theorem C108_counts : forall npi bq b Us Oms ps b' ts P w, evaluate_arrays npi bq b Us Oms ps = Ok (b', ts, P, w) ->
  length ts = length Us /\ length P = length Oms /\ (length P = length Us \/ length Us = 1%nat).
Proof. intros npi bq b Us Oms ps b' ts P w H. destruct (arrays_need _ _ _ _ _ _ _ _ _ _ H) as (_ & _ & C & D & ->). intuition. Qed.
Print Assumptions C108_counts.

(** C108, what holds. With one wind speed and several rotor speeds only the first rotor speed is solved for; the powers are
    its torque times each of the speeds. *)
Theorem C108_one_wind : forall npi bq b U Om Oms p ps b' y w, evaluate npi bq b [(U, Om, p)] = Ok (b', [Some y], w) ->
  evaluate_arrays npi bq b [U] (Om :: Oms) (p :: ps) =
  Ok (b', [Some (y_tot y)], map (fun x => Some (t_Q (y_tot y) * x * PI / 30)) (Om :: Oms), w).
Proof. intros npi bq b U Om Oms p ps b' y w E. rewrite arrays_one, E. reflexivity. Qed.
Print Assumptions C108_one_wind.

(** The rotor of the refutation: two powers, the second twice the first, from one torque. *)
Example C108_example : forall npi, 3 < npi < PI -> exists b' y w, evaluate npi midpoint d_blade [(1, 30 / PI, 0)] = Ok (b', [Some y], w) /\ 0 < t_T (y_tot y) /\
  evaluate_arrays npi midpoint d_blade [1] [30 / PI; 60 / PI] [0; 5] =
  Ok (b', [Some (y_tot y)], [Some (t_Q (y_tot y) * (30 / PI) * PI / 30); Some (t_Q (y_tot y) * (60 / PI) * PI / 30)], w).
Proof.
  intros npi Hn. destruct midpoint_contracts as (M1 & _ & M2).
  destruct (d_evaluate npi midpoint 1 0 Hn M1 M2 ltac:(lia)) as (b' & y & w & E & T & _). change (with_sectors d_blade 1) with d_blade in E.
  exists b', y, w. split; [exact E|]. split; [exact T|]. rewrite (C108_one_wind _ _ _ _ _ _ _ _ _ _ _ E). reflexivity.
Qed.
(** ... and lengths that are refused. *)
Example C108_refused : evaluate_arrays (31 / 10) midpoint d_blade [1; 2] [30 / PI; 60 / PI; 90 / PI] [0; 0] = Raise ValueError.
Proof.
  pose proof PI_RGT_0 as HP.
  refine (proj1 (proj2 (C108_errors (31 / 10) midpoint midpoint_tame _ _ d_construct I I ltac:(cbn; lia) ltac:(cbn; lia) _ _ _ _)) _ _ _).
  2-4: cbn [length]; lia.
  - repeat apply Forall_cons; try apply Forall_nil; apply Rgt_not_eq, Rdiv_lt_0_compat; lra.
Qed.
