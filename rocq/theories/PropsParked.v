(** The parked rotor (C87, C88). *)
From Coq Require Import Reals Bool Arith List Lra Lia.
From Verif Require Import Prelim CSystem CSystemSpec Num Bem BemGeomProofs Interp InterpSpec Blade IndSpec BladeSpec FlProofs StationProofs StationWitness StationLoads StationExist BladeProofs
  SectorProofs ConstructProofs SectorWitness SimilaritySpec SimilarityProofs SymmetryProofs ParkedSpec ParkedProofs ParkedWitness.
Import ListNotations.
Open Scope R_scope.

(** ** C87: at Omega = 0 a section with a cross wind carries the lift and drag at a right angle of inflow, without induction *)
Theorem C87_parked_loads : forall npi bq b U p az ls i l c th af clf cdf, b_inverse b = false ->
  section_loads npi bq b U 0 p az = Ok ls -> nth_error ls i = Some l ->
  nth_error (b_chord b) i = Some c -> nth_error (b_theta b) i = Some (Fin th) -> nth_error (b_af b) i = Some af -> computes af clf cdf -> b_mu b <> 0 ->
  let V := wind b U 0 (radians az) in fst V i <> 0 -> snd V i <> 0 ->
  parked_load npi (b_rho b) (b_mu b) c th (radians p) (fst V i) (snd V i) clf cdf l.
Proof. exact parked_section. Qed.
Print Assumptions C87_parked_loads.

(** In inverse mode the twist is the one that puts the section at its design angle of attack. *)
Theorem C87_parked_inverse : forall npi bq b U p az b' ls i l c al af clf cdf, b_inverse b = true ->
  distributedAeroLoads npi bq b U 0 p az = Ok (b', ls) -> nth_error ls i = Some l ->
  nth_error (b_chord b) i = Some c -> nth_error (b_alpha b) i = Some al -> nth_error (b_af b) i = Some af -> computes af clf cdf -> b_mu b <> 0 ->
  let V := wind b U 0 (radians az) in fst V i <> 0 -> snd V i <> 0 ->
  let th := npi / 2 - al - radians p in
  (exists t, nth_error (b_theta b') i = Some t /\ rep t th) /\ parked_load npi (b_rho b) (b_mu b) c th (radians p) (fst V i) (snd V i) clf cdf l.
Proof. exact parked_section_inverse. Qed.
Print Assumptions C87_parked_inverse.

(** No root finder is consulted. *)
Theorem C87_any_solver : forall npi bq bq' b U p az, distributedAeroLoads npi bq b U 0 p az = distributedAeroLoads npi bq' b U 0 p az.
Proof. exact parked_any_solver. Qed.
Print Assumptions C87_any_solver.

(** ** C88: a rotor that faces the wind has no loads at all when parked *)
Theorem C88_facing : forall npi bq g b, g_tilt g = 0 -> g_yaw g = 0 -> construct g = Ok b ->
  (forall U p az ls, section_loads npi bq b U 0 p az = Ok ls -> Forall (fun l => l = zero_load) ls) /\
  (forall conds b' outs w i U p y, evaluate npi bq b conds = Ok (b', outs, w) -> nth_error conds i = Some (U, 0, p) -> nth_error outs i = Some (Some y) -> y_tot y = tot0).
Proof. exact facing_constructed. Qed.
Print Assumptions C88_facing.

(** The claim [parked_always]: every parked section carries the loads of C87, in particular the drag of a wind from ahead. It fails
    there: the loads jump from those of C87 to zero as yaw goes to zero. *)
Theorem C88_parked_drag_refuted : ~ parked_always /\
  forall npi bq, 3 < npi < PI -> exists (g : R -> args) (K : R), 0 < K /\ forall yaw, 0 <= yaw < 90 -> exists b l0 l1, g_yaw (g yaw) = yaw /\ construct (g yaw) = Ok b /\
    section_loads npi bq b 10 0 0 0 = Ok [l0; l1] /\ (yaw = 0 -> rep (o_Np l0) 0 /\ rep (o_Np l1) 0) /\ (0 < yaw -> rep (o_Np l0) K /\ rep (o_Np l1) K).
Proof. exact parked_jump. Qed.
Print Assumptions C88_parked_drag_refuted.

(** A yaw of 30 degrees for C87, none for C88. *)
Example C87_example : forall npi bq, exists l0 l1, section_loads npi bq (p_blade 30) 10 0 0 0 = Ok [l0; l1] /\ b_inverse (p_blade 30) = false /\
  nth_error (b_chord (p_blade 30)) 1 = Some 1 /\ nth_error (b_theta (p_blade 30)) 1 = Some (Fin 0) /\ nth_error (b_af (p_blade 30)) 1 = Some drag_af /\
  computes drag_af (fun _ _ => 0) (fun _ _ => 1) /\ b_mu (p_blade 30) <> 0 /\
  fst (wind (p_blade 30) 10 0 (radians 0)) 1%nat <> 0 /\ snd (wind (p_blade 30) 10 0 (radians 0)) 1%nat <> 0 /\ rep (o_alpha l1) (degrees (npi / 2 - 0 - radians 0)) /\ rep (o_W l1) 10.
Proof.
  intros npi bq. destruct (p_loads npi bq 30 ltac:(lra)) as (l0 & l1 & E & _ & P). exists l0, l1. split; [exact E|]. do 4 (split; [reflexivity|]).
  split; [exact drag_computes|]. split; [cbn; lra|]. destruct (p_wind 30 1 ltac:(lia)) as [W1 W2]. rewrite W1, W2.
  assert (B : 0 < radians 30 < PI / 2) by (pose proof PI_RGT_0; unfold radians; lra).
  assert (0 < cos (radians 30)) by (apply cos_gt_0; lra). assert (0 < sin (radians 30)) by (apply sin_gt_0; lra). split; [lra|]. split; [lra|].
  specialize (P ltac:(lra) l1 (or_intror eq_refl)). unfold parked_load in P. cbv zeta in P. destruct P as (_ & _ & HW & _ & _ & HA & _). rewrite p_speed in HW. auto.
Qed.
Example C88_example : forall npi bq, g_tilt (p_args 0) = 0 /\ g_yaw (p_args 0) = 0 /\ construct (p_args 0) = Ok (p_blade 0) /\
  (exists ls, section_loads npi bq (p_blade 0) 10 0 0 0 = Ok ls /\ length ls = 2%nat).
Proof.
  intros npi bq. split; [reflexivity|]. split; [reflexivity|]. split; [apply p_construct|]. destruct (p_loads npi bq 0 ltac:(lra)) as (l0 & l1 & E & _). exists [l0; l1]. auto.
Qed.
