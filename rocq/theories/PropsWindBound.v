(** No section sees more wind than blows plus its own speed (C133). *)
From Coq Require Import Reals Bool Arith List Lra Lia.
From Verif Require Import Prelim CSystem CSystemSpec Num Bem BemGeomSpec BemGeomProofs Interp InterpSpec Blade IndSpec BladeSpec FlProofs StationProofs StationWitness StationLoads StationExist BladeProofs
  SectorProofs ConstructProofs SectorWitness SimilaritySpec SimilarityProofs SymmetryProofs ParkedSpec ParkedProofs ParkedWitness WindBoundSpec WindBoundProofs.
Import ListNotations.
Open Scope R_scope.

(** ** C133: for every tilt, yaw, cone, precurve, presweep and azimuth the wind across a section is at most the wind at its height
    plus the speed at which the section goes round (Omega in rpm, distance from the axis) *)
Theorem C133_relative_wind : forall b U Om az i, shear_defined b az i -> let V := wind b U Om (radians az) in
  len2 (fst V i) (snd V i) <= Rabs (wind_there b U az i) + Rabs (Om * PI / 30) * off_axis b i.
Proof. exact wind_bound. Qed.
Print Assumptions C133_relative_wind.

(** A parked section sees at most the wind at its height and carries at most the dynamic pressure of that wind times its chord times
    the largest resultant of its coefficients: direct and inverse mode. *)
Theorem C133_parked : forall npi bq b U p az b' ls i l c af clf cdf K, distributedAeroLoads npi bq b U 0 p az = Ok (b', ls) -> nth_error ls i = Some l ->
  nth_error (b_chord b) i = Some c -> nth_error (b_af b) i = Some af -> computes af clf cdf -> b_mu b <> 0 ->
  (if b_inverse b then exists al, nth_error (b_alpha b) i = Some al else exists th, nth_error (b_theta b) i = Some (Fin th)) ->
  shear_defined b az i -> coefficient_bound K clf cdf -> load_bound (b_rho b) c K (wind_there b U az i) l.
Proof. exact parked_bound. Qed.
Print Assumptions C133_parked.

(** The parked rotor of C87 in a wind of 10 from 30 degrees: the speed reaches the bound. *)
Example C133_example : forall npi bq, exists b' l0 l1, distributedAeroLoads npi bq (p_blade 30) 10 0 0 0 = Ok (b', [l0; l1]) /\
  nth_error (b_chord (p_blade 30)) 1 = Some 1 /\ nth_error (b_af (p_blade 30)) 1 = Some drag_af /\ computes drag_af (fun _ _ => 0) (fun _ _ => 1) /\ b_mu (p_blade 30) <> 0 /\
  b_inverse (p_blade 30) = false /\ nth_error (b_theta (p_blade 30)) 1 = Some (Fin 0) /\ shear_defined (p_blade 30) 0 1 /\ coefficient_bound 1 (fun _ _ => 0) (fun _ _ => 1) /\
  wind_there (p_blade 30) 10 0 1 = 10 /\ rep (o_W l1) 10 /\ exists N T, rep (o_Np l1) N /\ rep (o_Tp l1) T /\ len2 N T = Rabs (1 * 1) * 10 ^ 2 / 2 * 1.
Proof.
  intros npi bq. destruct (p_loads npi bq 30 ltac:(lra)) as (l0 & l1 & E & _ & P). unfold section_loads in E. apply bind_ok in E. destruct E as ((b' & ls) & E & E').
  apply ok_inj in E'. cbn [snd] in E'. subst ls. exists b', l0, l1. split; [exact E|]. do 2 (split; [reflexivity|]). split; [exact drag_computes|]. split; [cbn; lra|].
  do 2 (split; [reflexivity|]). split; [right; reflexivity|].
  split. { intros al Re. unfold len2. replace (0 ^ 2 + 1 ^ 2) with 1 by ring. rewrite sqrt_1. lra. }
  split. { unfold wind_there, sheared. change (b_shearExp (p_blade 30)) with 0. unfold Rpower. rewrite Rmult_0_l, exp_0. ring. }
  specialize (P ltac:(lra) l1 (or_intror eq_refl)). unfold parked_load in P. cbv zeta in P. destruct P as (_ & _ & HW & _ & _ & _ & _ & _ & HN & HT). rewrite p_speed in HW, HN, HT.
  split; [exact HW|]. eexists. eexists. split; [exact HN|]. split; [exact HT|]. rewrite Rabs_pos_eq by lra. unfold len2.
  replace ((1 * 10 ^ 2 / 2 * 1 * (0 * cos (npi / 2) + 1 * sin (npi / 2))) ^ 2 + (1 * 10 ^ 2 / 2 * 1 * (0 * sin (npi / 2) - 1 * cos (npi / 2))) ^ 2)
    with (50 ^ 2 * (sin (npi / 2) ^ 2 + cos (npi / 2) ^ 2)) by field. rewrite cs2, Rmult_1_r, sqrt_pow2 by lra. lra.
Qed.
