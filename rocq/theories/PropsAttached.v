(** One inflow angle or several (C134). *)
From Coquelicot Require Import Coquelicot.
From Coq Require Import Reals Bool Arith List Lra Lia.
From Verif Require Import Prelim Num Bem IndSpec Blade BladeSpec FlProofs StationProofs StationWitness StationExist StationLoads BladeProofs TwistWitness InverseForward DragWitness
  AttachedSpec AttachedLoss AttachedProofs AttachedWitness.
Import ListNotations.
Open Scope R_scope.

(** ** C134: two root finders that both find an inflow angle give the same loads *)

(** Fails when lift falls beyond a peak, even with a continuous lift curve: on a rotor given to the constructor the first station
    carries a load with one root finder and none with the other. *)
Theorem C134_same_loads_refuted : ~ same_loads /\
  forall npi, 3 < npi < PI -> exists g b clf cdf af bq bq' b1 ls l b2 ls' l' N, construct g = Ok b /\ solves bq /\ solves bq' /\ nth_error (b_af b) 0 = Some af /\ computes af clf cdf /\
    (forall Re al, continuous (fun al => clf al Re) al) /\
    distributedAeroLoads npi bq b 1 (30 / PI) 0 0 = Ok (b1, ls) /\ nth_error ls 0 = Some l /\ distributedAeroLoads npi bq' b 1 (30 / PI) 0 0 = Ok (b2, ls') /\ nth_error ls' 0 = Some l' /\
    rep (o_Np l) N /\ 0 < N /\ rep (o_Np l') 0.
Proof.
  split; [exact same_loads_false|]. intros npi Hn. destruct (two_loads npi Hn) as (l & l' & N & _ & _ & E1 & E2 & N1 & P & N2).
  destruct (rotor_first npi _ _ E1) as (b1 & ls & D1 & L1). destruct (rotor_first npi _ _ E2) as (b2 & ls' & D2 & L2).
  exists (w_args (stall_af tent)), (w_blade (stall_af tent)), (stall_cl tent), (fun _ _ => 0), (stall_af tent), (probe peak), (probe (PI / 4)), b1, ls, l, b2, ls', l', N.
  split; [apply w_construct|]. split; [apply probe_solves|]. split; [apply probe_solves|]. split; [reflexivity|]. split; [exact (stall_computes tent)|].
  split. { intros Re al. unfold stall_cl. apply (continuous_mult (fun _ => 3 * PI / 5) tent); [apply continuous_const|apply tent_cont]. }
  auto 10.
Qed.
Print Assumptions C134_same_loads_refuted.

(** Holds as long as lift does not fall with the angle of attack, if drag is left out of the induction, with or without tip loss,
    hub loss and wake rotation, at light and at high loading and at negative lift: at most one angle of the first bracket is a zero.
    The code replaces the empirical formula of high loading where its denominator nearly vanishes; the angles found are not there. *)
Theorem C134_losses : forall npi bq bq' (rt : rotor fl) (sc : sect fl) r chord t Vx Vy Rhub Rtip rho mu p clf cdf x x',
  3 < npi < PI -> solves bq -> solves bq' -> rt_iterRe rt = 1%nat ->
  rep (s_r sc) r -> rep (s_chord sc) chord -> rep (s_theta sc) t -> rep (s_Vx sc) Vx -> rep (s_Vy sc) Vy ->
  rep (rt_Rhub rt) Rhub -> rep (rt_Rtip rt) Rtip -> rep (rt_rho rt) rho -> rep (rt_mu rt) mu -> rep (rt_pitch rt) p ->
  computes (s_af sc) clf cdf -> mu <> 0 -> 0 < Vx -> 0 < Vy -> useCd (rt_opts rt) = false ->
  (1 <= rt_B rt)%nat -> 0 < Rhub < r -> r < Rtip -> 0 < chord ->
  rising (fun al => clf al (rho * sqrt (Vx ^ 2 + Vy ^ 2) * chord / mu)) (- (t + p)) (PI / 2 - (t + p)) ->
  documented_bracket npi (errf rt sc 0) (1 / 1000000) (npi / 2) ->
  bq (errf rt sc 0) (Fin (1 / 1000000)) (Fin (npi / 2)) = Ok x -> bq' (errf rt sc 0) (Fin (1 / 1000000)) (Fin (npi / 2)) = Ok x' ->
  (forall v, x = Fin v \/ x' = Fin v -> clear_of_guard (rt_opts rt) (rt_B rt) r chord Rhub Rtip v
    (clf (v - (t + p)) (rho * sqrt (Vx ^ 2 + Vy ^ 2) * chord / mu)) (cdf (v - (t + p)) (rho * sqrt (Vx ^ 2 + Vy ^ 2) * chord / mu))) ->
  x = x' /\ solve_station npi bq rt true sc = solve_station npi bq' rt true sc.
Proof. exact losses_same. Qed.
Print Assumptions C134_losses.

(** Without losses that denominator does not vanish. *)
Theorem C134_attached : forall npi bq bq' (rt : rotor fl) (sc : sect fl) r chord t Vx Vy Rhub Rtip rho mu p clf cdf x x',
  3 < npi < PI -> solves bq -> solves bq' -> rt_iterRe rt = 1%nat ->
  rep (s_r sc) r -> rep (s_chord sc) chord -> rep (s_theta sc) t -> rep (s_Vx sc) Vx -> rep (s_Vy sc) Vy ->
  rep (rt_Rhub rt) Rhub -> rep (rt_Rtip rt) Rtip -> rep (rt_rho rt) rho -> rep (rt_mu rt) mu -> rep (rt_pitch rt) p ->
  computes (s_af sc) clf cdf -> mu <> 0 -> 0 < Vx -> 0 < Vy -> plain (rt_opts rt) ->
  (1 <= rt_B rt)%nat -> 0 < Rhub < r -> r < Rtip -> 0 < chord ->
  rising (fun al => clf al (rho * sqrt (Vx ^ 2 + Vy ^ 2) * chord / mu)) (- (t + p)) (PI / 2 - (t + p)) ->
  documented_bracket npi (errf rt sc 0) (1 / 1000000) (npi / 2) ->
  bq (errf rt sc 0) (Fin (1 / 1000000)) (Fin (npi / 2)) = Ok x -> bq' (errf rt sc 0) (Fin (1 / 1000000)) (Fin (npi / 2)) = Ok x' ->
  x = x' /\ solve_station npi bq rt true sc = solve_station npi bq' rt true sc.
Proof. exact attached_same. Qed.
Print Assumptions C134_attached.

(** Two different angles are found only when lift falls between them: without drag in the induction the larger angle has less lift. *)
Theorem C134_stall : forall npi bq bq' (rt : rotor fl) (sc : sect fl) r chord t Vx Vy Rhub Rtip rho mu p clf cdf v v',
  3 < npi < PI -> solves bq -> solves bq' ->
  rep (s_r sc) r -> rep (s_chord sc) chord -> rep (s_theta sc) t -> rep (s_Vx sc) Vx -> rep (s_Vy sc) Vy ->
  rep (rt_Rhub rt) Rhub -> rep (rt_Rtip rt) Rtip -> rep (rt_rho rt) rho -> rep (rt_mu rt) mu -> rep (rt_pitch rt) p ->
  computes (s_af sc) clf cdf -> mu <> 0 -> 0 < Vx -> 0 < Vy -> (1 <= rt_B rt)%nat -> 0 < Rhub < r -> r < Rtip -> 0 < chord ->
  bq (errf rt sc 0) (Fin (1 / 1000000)) (Fin (npi / 2)) = Ok (Fin v) -> bq' (errf rt sc 0) (Fin (1 / 1000000)) (Fin (npi / 2)) = Ok (Fin v') -> v < v' ->
  let Re := rho * sqrt (Vx ^ 2 + Vy ^ 2) * chord / mu in let cl x := clf (x - (t + p)) Re in let cd x := cdf (x - (t + p)) Re in
  clear_of_guard (rt_opts rt) (rt_B rt) r chord Rhub Rtip v (cl v) (cd v) -> clear_of_guard (rt_opts rt) (rt_B rt) r chord Rhub Rtip v' (cl v') (cd v') ->
  useCd (rt_opts rt) = false -> cl v' < cl v.
Proof.
  intros npi bq bq' rt sc r chord t Vx Vy Rhub Rtip rho mu p clf cdf v v' Hn S S' Qr Qc Qt Qx Qy Qh QT Qrho Qmu Qp Haf Hmu HVx HVy HB Hr HT Hch E E' L Re cl cd K K' U.
  destruct (found_zeros _ _ _ _ _ Hn S E) as [I Z]. destruct (found_zeros _ _ _ _ _ Hn S' E') as [I' Z'].
  apply (two_zeros rt sc r chord t Vx Vy Rhub Rtip rho mu p clf cdf); first [assumption | exact (proj1 I) | exact (proj2 I')].
Qed.
Print Assumptions C134_stall.

(** With drag in the induction and the smaller angle at positive lift and drag, the larger one has less lift or less drag, or there is
    wake rotation and it has more drag. *)
Theorem C134_drag : forall npi bq bq' (rt : rotor fl) (sc : sect fl) r chord t Vx Vy Rhub Rtip rho mu p clf cdf v v',
  3 < npi < PI -> solves bq -> solves bq' ->
  rep (s_r sc) r -> rep (s_chord sc) chord -> rep (s_theta sc) t -> rep (s_Vx sc) Vx -> rep (s_Vy sc) Vy ->
  rep (rt_Rhub rt) Rhub -> rep (rt_Rtip rt) Rtip -> rep (rt_rho rt) rho -> rep (rt_mu rt) mu -> rep (rt_pitch rt) p ->
  computes (s_af sc) clf cdf -> mu <> 0 -> 0 < Vx -> 0 < Vy -> (1 <= rt_B rt)%nat -> 0 < Rhub < r -> r < Rtip -> 0 < chord ->
  bq (errf rt sc 0) (Fin (1 / 1000000)) (Fin (npi / 2)) = Ok (Fin v) -> bq' (errf rt sc 0) (Fin (1 / 1000000)) (Fin (npi / 2)) = Ok (Fin v') -> v < v' ->
  let Re := rho * sqrt (Vx ^ 2 + Vy ^ 2) * chord / mu in let cl x := clf (x - (t + p)) Re in let cd x := cdf (x - (t + p)) Re in
  clear_of_guard (rt_opts rt) (rt_B rt) r chord Rhub Rtip v (cl v) (cd v) -> clear_of_guard (rt_opts rt) (rt_B rt) r chord Rhub Rtip v' (cl v') (cd v') ->
  useCd (rt_opts rt) = true -> 0 <= cl v -> 0 <= cd v -> cl v' < cl v \/ cd v' < cd v \/ (wakerotation (rt_opts rt) = true /\ cd v < cd v').
Proof.
  intros npi bq bq' rt sc r chord t Vx Vy Rhub Rtip rho mu p clf cdf v v' Hn S S' Qr Qc Qt Qx Qy Qh QT Qrho Qmu Qp Haf Hmu HVx HVy HB Hr HT Hch E E' L Re cl cd K K' U L0 D0.
  destruct (found_zeros _ _ _ _ _ Hn S E) as [I Z]. destruct (found_zeros _ _ _ _ _ Hn S' E') as [I' Z'].
  apply (two_zeros_drag rt sc r chord t Vx Vy Rhub Rtip rho mu p clf cdf); first [assumption | exact (proj1 I) | exact (proj2 I')].
Qed.
Print Assumptions C134_drag.

(** A section whose lift rises up to the peak and then stays there: every solving root finder that finds an angle of the first
    bracket finds the one where the tangent is 3/4, and the section carries a load. *)
Example C134_example : forall npi, 3 < npi < PI -> exists N l,
  (forall bq x, solves bq -> bq (errf w_rotor (stall_sect ramp) 0) (Fin (1 / 1000000)) (Fin (npi / 2)) = Ok x -> x = Fin peak /\ solve_station npi bq w_rotor true (stall_sect ramp) = Ok l) /\
  probe peak (errf w_rotor (stall_sect ramp) 0) (Fin (1 / 1000000)) (Fin (npi / 2)) = Ok (Fin peak) /\ rep (o_Np l) N /\ 0 < N.
Proof.
  intros npi Hn. destruct (ramp_load npi Hn) as (l & N & F & E & Q & P). exists N, l. split; [|auto]. intros bq x SB B. pose proof PI2_3_2.
  destruct (C134_attached npi bq (probe peak) w_rotor (stall_sect ramp) 1 1 0 1 1 (1 / 2) 3 1 1 0 (stall_cl ramp) (fun _ _ => 0) x (Fin peak) Hn SB (probe_solves peak) eq_refl
    (rep_Fin _) (rep_Fin _) (rep_Fin _) (rep_Fin _) (rep_Fin _) (rep_Fin _) (rep_Fin _) (rep_Fin _) (rep_Fin _) (rep_Fin _) (stall_computes ramp) ltac:(lra) ltac:(lra) ltac:(lra)
    ltac:(repeat split) ltac:(cbn; lia) ltac:(lra) ltac:(lra) ltac:(lra) ramp_rising (ramp_bracket npi Hn) B F) as [-> S]. rewrite S. auto.
Qed.

(** With tip and hub loss and wake rotation, and lift scaled by the loss factor at that angle: still the only zero that is found, with
    a loading of 4/21. *)
Example C134_losses_example : forall npi, 3 < npi < PI -> full_k peak = 4 / 21 /\ probe peak (errf full_rotor (stall_sect full_lift) 0) (Fin (1 / 1000000)) (Fin (npi / 2)) = Ok (Fin peak) /\
  forall bq v, solves bq -> bq (errf full_rotor (stall_sect full_lift) 0) (Fin (1 / 1000000)) (Fin (npi / 2)) = Ok (Fin v) ->
  clear_of_guard full 2 1 1 (1 / 2) 3 v (stall_cl full_lift v 0) 0 -> v = peak /\ solve_station npi bq full_rotor true (stall_sect full_lift) = solve_station npi (probe peak) full_rotor true (stall_sect full_lift).
Proof.
  intros npi Hn. destruct peak_facts as ((P1 & P2) & _). pose proof PI_4. assert (BX : 1 / 1000000 <= peak <= npi / 2) by lra.
  pose proof (probe_finds peak _ _ _ full_zero BX) as F. split; [exact full_k_peak|]. split; [exact F|]. intros bq v SB B K.
  assert (KP : clear_of_guard full 2 1 1 (1 / 2) 3 peak (stall_cl full_lift peak 0) 0).
  { unfold clear_of_guard. rewrite full_loading by lra. rewrite full_k_peak. lra. }
  destruct (C134_losses npi bq (probe peak) full_rotor (stall_sect full_lift) 1 1 0 1 1 (1 / 2) 3 1 1 0 (stall_cl full_lift) (fun _ _ => 0) (Fin v) (Fin peak) Hn SB (probe_solves peak) eq_refl
    (rep_Fin _) (rep_Fin _) (rep_Fin _) (rep_Fin _) (rep_Fin _) (rep_Fin _) (rep_Fin _) (rep_Fin _) (rep_Fin _) (rep_Fin _) (stall_computes full_lift) ltac:(lra) ltac:(lra) ltac:(lra)
    eq_refl ltac:(cbn; lia) ltac:(lra) ltac:(lra) ltac:(lra) full_rising (full_bracket npi Hn) B F) as [E S].
  { intros u [U|U]; injection U as <-; rewrite Rplus_0_l, Rminus_0_r; assumption. }
  injection E as ->. auto.
Qed.

(** The two angles of the stalling section, and of one with drag in the induction: both have two zeros, with less lift at the larger. *)
Example C134_stall_example : forall npi, 3 < npi < PI ->
  (probe peak (errf w_rotor (stall_sect tent) 0) (Fin (1 / 1000000)) (Fin (npi / 2)) = Ok (Fin peak) /\ probe (PI / 4) (errf w_rotor (stall_sect tent) 0) (Fin (1 / 1000000)) (Fin (npi / 2)) = Ok (Fin (PI / 4)) /\
   stall_cl tent (PI / 4) 0 < stall_cl tent peak 0) /\
  (probe peak (errf dragged_rotor dragged_sect 0) (Fin (1 / 1000000)) (Fin (npi / 2)) = Ok (Fin peak) /\ probe (PI / 4) (errf dragged_rotor dragged_sect 0) (Fin (1 / 1000000)) (Fin (npi / 2)) = Ok (Fin (PI / 4)) /\
   dragged_cl (PI / 4) 0 < dragged_cl peak 0).
Proof.
  intros npi Hn. destruct peak_facts as ((P1 & P2) & SP & CP). pose proof PI_4. assert (BX : 1 / 1000000 <= peak <= npi / 2) by lra. assert (BY : 1 / 1000000 <= PI / 4 <= npi / 2) by lra. split.
  - pose proof (probe_finds peak _ _ _ ss_zero_peak BX) as F1. pose proof (probe_finds (PI / 4) _ _ _ ss_zero_45 BY) as F2. split; [exact F1|]. split; [exact F2|].
    assert (T2 : tent (PI / 4) = 0) by (apply tent_out; rewrite Rabs_pos_eq; lra).
    pose proof (C134_stall npi (probe peak) (probe (PI / 4)) w_rotor (stall_sect tent) 1 1 0 1 1 (1 / 2) 3 1 1 0 (stall_cl tent) (fun _ _ => 0) peak (PI / 4) Hn (probe_solves _) (probe_solves _)
      (rep_Fin _) (rep_Fin _) (rep_Fin _) (rep_Fin _) (rep_Fin _) (rep_Fin _) (rep_Fin _) (rep_Fin _) (rep_Fin _) (rep_Fin _) (stall_computes tent) ltac:(lra) ltac:(lra) ltac:(lra)
      ltac:(cbn; lia) ltac:(lra) ltac:(lra) ltac:(lra) F1 F2 P2) as Q. cbv zeta in Q. rewrite !Rplus_0_l, !Rminus_0_r in Q. apply Q; [| |reflexivity].
    + unfold clear_of_guard. change (rt_opts w_rotor) with off. change (rt_B w_rotor) with 2%nat. intros L. exfalso. change (stall_cl tent peak _) with (stall_cl tent peak 0) in L. rewrite ss_loading in L by lra. rewrite tent_peak, SP, CP in L. lra.
    + unfold clear_of_guard. change (rt_opts w_rotor) with off. change (rt_B w_rotor) with 2%nat. intros L. exfalso. change (stall_cl tent (PI / 4) _) with (stall_cl tent (PI / 4) 0) in L. rewrite ss_loading in L by lra. rewrite T2 in L. unfold Rdiv in L. lra.
  - destruct dragged_zeros as [Z1 Z2]. destruct dragged_peak as [K1 K2]. pose proof (probe_finds peak _ _ _ Z1 BX) as F1. pose proof (probe_finds (PI / 4) _ _ _ Z2 BY) as F2. split; [exact F1|]. split; [exact F2|].
    pose proof (C134_drag npi (probe peak) (probe (PI / 4)) dragged_rotor dragged_sect 1 1 0 1 1 (1 / 2) 3 1 1 0 dragged_cl (fun _ _ => 1 / 10) peak (PI / 4) Hn (probe_solves _) (probe_solves _)
      (rep_Fin _) (rep_Fin _) (rep_Fin _) (rep_Fin _) (rep_Fin _) (rep_Fin _) (rep_Fin _) (rep_Fin _) (rep_Fin _) (rep_Fin _) dragged_computes ltac:(lra) ltac:(lra) ltac:(lra)
      ltac:(cbn; lia) ltac:(lra) ltac:(lra) ltac:(lra) F1 F2 P2) as Q. cbv zeta in Q. rewrite !Rplus_0_l, !Rminus_0_r in Q.
    change (rt_opts dragged_rotor) with dragged in Q. change (rt_B dragged_rotor) with 2%nat in Q. unfold clear_of_guard in Q.
    change (dragged_cl peak _) with (dragged_cl peak 0) in Q. change (dragged_cl (PI / 4) _) with (dragged_cl (PI / 4) 0) in Q. fold (dragged_k peak) (dragged_k (PI / 4)) in Q. rewrite K1, K2 in Q.
    assert (LP : 0 <= dragged_cl peak 0) by (unfold dragged_cl; rewrite tent_peak; lra).
    destruct Q as [Q|[Q|[Q _]]]; [intros; lra|intros; lra|reflexivity|exact LP|lra|exact Q|lra|discriminate].
Qed.
