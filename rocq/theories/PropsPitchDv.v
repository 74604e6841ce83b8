(** Derivatives by the pitch angle against derivatives by the twist angles (C112). *)
From Coquelicot Require Import Coquelicot.
From Coq Require Import Reals Bool Arith List Lra Lia.
From Verif Require Import Prelim Num Bem DiffSpec BemDiff DeriveLib Blade BladeDiff BladeDiffSpec BladeDiffFl FlProofs FlDvSpec
  StationProofs BladeDvProofs BladeDvExample FlDvProofs FlDvRates PitchDv PropsFlDv.
Import ListNotations.
Open Scope R_scope.

(** ** C112: pitching the rotor is twisting every station, also in the derivative code *)

(** The dictionaries of distributedAeroLoads, with IEEE special values: whether the entries are numbers, infinities or NaN, entry
    "dpitch" of station i is the diagonal entry (i, i) of "dtheta", and the other entries of row i of "dtheta" are 0. No
    smoothness of the airfoils and no solved residual is needed: this is a property of the code and not of the derivative. *)
Theorem C112_section_loads : forall npi bq fx D Np Tp dN dT, @g_distributed fl _ npi bq fx D = Ok (Np, Tp, dN, dT) ->
  forall i, (i < f_n fx)%nat ->
  gl_dpitch dN i = gl_dtheta dN i i /\ gl_dpitch dT i = gl_dtheta dT i i /\
  forall j, j <> i -> gl_dtheta dN i j = Fin 0 /\ gl_dtheta dT i j = Fin 0.
Proof.
  intros npi bq fx D Np Tp dN dT E i Hi. destruct (g_distributed_pitch npi bq fx D Np Tp dN dT E i Hi) as [H1 H2].
  split; [exact H1|]. split; [exact H2|]. intros j Hj. apply (g_distributed_diag npi bq fx D Np Tp dN dT E i j). congruence.
Qed.
Print Assumptions C112_section_loads.

(** The dictionaries of evaluate (exact numbers, which are those of the code where no divisor is zero: C98_same_numbers): the
    derivative of an output by the pitch is the sum of its derivatives by the twists of the stations. For a coefficient the two
    are computed by different formulas, which agree where none of their divisors is zero. *)
Theorem C112_outputs : forall npi bq fx D E, evaluate_dv npi bq fx D = Ok E ->
  let pitch_is_sum e := e_dpitch e = asum (f_n fx) (e_dtheta e) in
  Forall pitch_is_sum [ev_dT E; ev_dY E; ev_dZ E; ev_dQ E; ev_dMy E; ev_dMz E; ev_dMb E; ev_dP E] /\
  (dyn (f_rho fx) D <> 0 -> rotorR_d D <> 0 ->
   (t_T (ev_tot E) <> 0 -> pitch_is_sum (ev_dCT E)) /\ (t_Y (ev_tot E) <> 0 -> pitch_is_sum (ev_dCY E)) /\
   (t_Z (ev_tot E) <> 0 -> pitch_is_sum (ev_dCZ E)) /\ (t_Q (ev_tot E) <> 0 -> pitch_is_sum (ev_dCQ E)) /\
   (t_My (ev_tot E) <> 0 -> pitch_is_sum (ev_dCMy E)) /\ (t_Mz (ev_tot E) <> 0 -> pitch_is_sum (ev_dCMz E)) /\
   (t_Mb (ev_tot E) <> 0 -> pitch_is_sum (ev_dCMb E)) /\
   (t_Q (ev_tot E) <> 0 -> x_Omega D <> 0 -> pitch_is_sum (ev_dCP E))).
Proof.
  intros npi bq fx D E H. destruct (evaluate_sums npi bq fx D E H) as (t & (H1 & H2 & H3 & H4 & H5 & H6 & H7) & ->). cbv zeta.
  unfold finish_dv.
  cbn [ev_tot ev_dT ev_dY ev_dZ ev_dQ ev_dMy ev_dMz ev_dMb ev_dP ev_dCT ev_dCY ev_dCZ ev_dCQ ev_dCMy ev_dCMz ev_dCMb ev_dCP].
  split.
  - repeat (constructor; [first [exact H1|exact H2|exact H3|exact H4|exact H5|exact H6|exact H7|exact (sum_P (f_n fx) D _ _ H4)]|]). constructor.
  - intros _ _. refine (conj _ (conj _ (conj _ (conj _ (conj _ (conj _ (conj _ _))))))).
    + intros K. exact (sum_force (f_n fx) (f_rho fx) D _ _ K H1).
    + intros K. exact (sum_force (f_n fx) (f_rho fx) D _ _ K H2).
    + intros K. exact (sum_force (f_n fx) (f_rho fx) D _ _ K H3).
    + intros K. exact (sum_moment (f_n fx) (f_rho fx) D _ _ K H4).
    + intros K. exact (sum_moment (f_n fx) (f_rho fx) D _ _ K H5).
    + intros K. exact (sum_moment (f_n fx) (f_rho fx) D _ _ K H6).
    + intros K. exact (sum_moment (f_n fx) (f_rho fx) D _ _ K H7).
    + intros _ _. exact (sum_power (f_n fx) (f_rho fx) D _ _ _ H4).
Qed.
Print Assumptions C112_outputs.

(** The rotor of BladeDvExample.v: two stations, both calls return. *)
Example C112_example : forall npi, f_n ex_fx = 2%nat /\ (exists o, @g_distributed fl _ npi ex_bq ex_fx (ex_D 10) = Ok o) /\
  (exists E, evaluate_dv npi ex_bq ex_fx (ex_D 10) = Ok E /\ e_dpitch (ev_dP E) = 0 + e_dtheta (ev_dP E) 0%nat + e_dtheta (ev_dP E) 1%nat) /\
  dyn (f_rho ex_fx) (ex_D 10) <> 0 /\ rotorR_d (ex_D 10) <> 0.
Proof.
  intros npi. split; [reflexivity|]. destruct (C98_example npi) as ((E & EE) & Hd & Hr & _). split.
  - destruct (ex_distributed npi 10 ltac:(lra)) as (_ & _ & _ & HS & [[[[Np Tp] dN] dT] Eo]).
    destruct (C97_rates_are_finite npi ex_bq ex_fx ex_D 10 Np Tp dN dT Eo) as (dN' & dT' & G & _). exists (Np, Tp, dN', dT'). exact G.
  - split; [|split; assumption]. exists E. split; [exact EE|]. destruct (C112_outputs npi ex_bq ex_fx (ex_D 10) E EE) as [F _].
    rewrite Forall_forall in F. apply (F (ev_dP E)). cbn. tauto.
Qed.
