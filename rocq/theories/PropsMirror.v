(** Property theorems about the mirrored rotor (C126). *)
From Coq Require Import Reals Bool Arith List Lra Lia.
From Verif Require Import Prelim Num Bem Blade BladeSpec FlProofs StationProofs StationLoads StationExist BladeProofs SectorProofs SimilaritySpec SimilarityProofs SymmetryProofs MirrorSpec MirrorProofs MirrorWitness.
Import ListNotations.
Open Scope R_scope.

(** ** C126: left and right *)

(** Yaw, sweep, azimuth and sense of rotation reversed: the wind through the rotor plane is the same at every station, the wind along the sections is opposite.
    Arguments refused on one side are refused on the other, with the same exception. *)
Theorem C126_wind : forall g, corresponds (fun b b' => forall U Om az i,
    fst (wind b' U (- Om) (- az)) i = fst (wind b U Om az) i /\ snd (wind b' U (- Om) (- az)) i = - snd (wind b U Om az) i)
  (construct g) (construct (mirrored g)).
Proof. intros g. rewrite construct_mirrored. destruct (construct g) as [b|e]; [|reflexivity]. cbn [corresponds]. exact (wind_mirrored b). Qed.
Print Assumptions C126_wind.

(** A rotor standing still carries the same loads at the mirrored azimuth. *)
Theorem C126_parked_loads : forall npi bq g, corresponds (fun b b' => forall U p az, section_loads npi bq b' U 0 p (- az) = section_loads npi bq b U 0 p az)
  (construct g) (construct (mirrored g)).
Proof. intros npi bq g. rewrite construct_mirrored. destruct (construct g) as [b|e]; [|reflexivity]. cbn [corresponds]. exact (loads_mirrored npi bq b). Qed.
Print Assumptions C126_parked_loads.

(** So its totals agree, except for the sign of the moment about the vertical axis; among several conditions, for those with Omega = 0. *)
Theorem C126_parked_totals : forall npi bq g b b' conds b1 outs w, construct g = Ok b -> construct (mirrored g) = Ok b' -> evaluate npi bq b conds = Ok (b1, outs, w) ->
  (forall b2 outs' w', evaluate npi bq b' conds = Ok (b2, outs', w') -> length outs' = length outs /\
     forall i U p o o', nth_error conds i = Some (U, 0, p) -> nth_error outs i = Some o -> nth_error outs' i = Some o' ->
       mirror_opt (g_rho g <> 0 /\ U <> 0 /\ b_rotorR b <> 0) o o') /\
  ((forall U Om p, In (U, Om, p) conds -> Om = 0) -> exists b2 outs' w', evaluate npi bq b' conds = Ok (b2, outs', w')).
Proof.
  intros npi bq g b b' conds b1 outs w E E' HE. rewrite construct_mirrored, E in E'. apply ok_inj in E'. subst b'.
  destruct (construct_forward g b E) as [Hi _]. rewrite <- (construct_rho g b E). assert (Hn : (1 <= b_nSector b)%nat) by exact (construct_sectors g b E). split.
  - intros b2 outs' w' HE'. split; [|intros i U p o o'; exact (mirrored_evaluate npi bq b conds b1 outs w b2 outs' w' Hi Hn HE HE' i U p o o')].
    destruct conds as [|c0 conds0] eqn:EC; [unfold evaluate in HE; cbn in HE; discriminate|]. rewrite <- EC in *. assert (Hc : conds <> []) by (rewrite EC; discriminate).
    pose proof (evaluate_pointwise npi bq b conds Hi Hn Hc) as P. rewrite HE in P. pose proof (evaluate_pointwise npi bq (mirror_blade b) conds Hi Hn Hc) as Q. rewrite HE' in Q.
    rewrite <- (Forall2_len _ _ _ P). symmetry. apply (Forall2_len _ _ _ Q).
  - intros H0. destruct (mirrored_succeeds npi bq b conds b1 outs w Hi Hn H0 HE) as (b2 & outs' & w' & E2 & _). eauto.
Qed.
Print Assumptions C126_parked_totals.

(** A swept rotor yawed by 30 and tilted by 30 degrees, with positive normal loads. *)
Example C126_example : forall npi bq, 3 < npi < PI -> g_yaw m_args = 30 /\ g_presweep m_args = Some [0; 1] /\
  exists b b' b1 y w b2 y' w' l0 l1 N0, construct m_args = Ok b /\ construct (mirrored m_args) = Ok b' /\
    evaluate npi bq b [(10, 0, 0)] = Ok (b1, [Some y], w) /\ evaluate npi bq b' [(10, 0, 0)] = Ok (b2, [Some y'], w') /\ t_Mz (y_tot y') = - t_Mz (y_tot y) /\
    section_loads npi bq b 10 0 0 (INR 1 * 360 / INR 4) = Ok [l0; l1] /\ rep (o_Np l0) N0 /\ 0 < N0.
Proof.
  intros npi bq Hn. split; [reflexivity|]. split; [reflexivity|]. destruct (m_evaluate npi bq Hn) as (b1 & y & w & E).
  pose proof (construct_mirrored m_args) as M. rewrite m_construct in M.
  destruct (mirrored_one npi bq m_blade 10 0 b1 (Some y) w eq_refl ltac:(cbn; lia) E) as (b2 & o' & w' & E' & H). destruct o' as [y'|]; [|destruct H].
  destruct (m_loads npi bq 1 ltac:(lia) Hn) as (l0 & l1 & N0 & N1 & T0 & T1 & EL & R0 & _ & _ & _ & P0 & _).
  exists m_blade, (mirror_blade m_blade), b1, y, w, b2, y', w', l0, l1, N0. refine (conj m_construct (conj M (conj E (conj E' (conj _ (conj EL (conj R0 P0))))))).
  apply H.
Qed.
