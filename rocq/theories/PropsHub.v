(** Hub height of a rotor in a uniform wind (C113). *)
From Coquelicot Require Import Coquelicot.
From Coq Require Import Reals Bool Arith List Lra Lia.
From Verif Require Import Prelim Num Bem DiffSpec BemDiff Blade BladeDiff BladeDiffSpec StationProofs BladeSpec SimilaritySpec SymmetryProofs SymmetryWitness
  BladeDvProofs BladeDvExample HubSpec HubProofs PropsStation.
Import ListNotations.
Open Scope R_scope.

(** ** C113: with shear exponent 0 the hub height has no effect

    The hub height only enters through the power
    law, so in a uniform wind any two hub heights give the same calls, and every derivative by the hub height is 0. The hub
    heights are not 0, because the code divides by them. *)
Theorem C113_section_loads : forall npi bq h g, g_shearExp g = 0 -> g_hubHt g <> 0 -> h <> 0 ->
  corresponds (fun b b' => forall U Om p az, section_loads npi bq b U Om p az = section_loads npi bq b' U Om p az)
    (construct g) (construct (with_hub h g)).
Proof.
  intros npi bq h g Hs _ _. rewrite construct_hub. destruct (construct g) as [b|e] eqn:E; [|reflexivity]. cbn [corresponds]. intros U Om p az.
  apply dal_hub. rewrite (construct_shear g b E). exact Hs.
Qed.
Print Assumptions C113_section_loads.

Theorem C113_rotor : forall npi bq h g, g_shearExp g = 0 -> g_hubHt g <> 0 -> h <> 0 ->
  corresponds (fun b b' => forall conds, returned (evaluate npi bq b conds) = returned (evaluate npi bq b' conds))
    (construct g) (construct (with_hub h g)).
Proof.
  intros npi bq h g Hs _ _. rewrite construct_hub. destruct (construct g) as [b|e] eqn:E; [|reflexivity]. cbn [corresponds]. intros conds.
  destruct (construct_forward g b E) as [Hi _]. rewrite <- (map_id conds) at 1.
  apply (evaluate_same npi bq b (hub_blade h b) (fun c => c) Hi Hi eq_refl).
  - intros [[U Om] p] az. apply dal_hub. rewrite (construct_shear g b E). exact Hs.
  - reflexivity.
  - intros [[U Om] p] t. reflexivity.
Qed.
Print Assumptions C113_rotor.

(** The dictionaries: neither smooth airfoils nor a solved residual are needed. *)
Theorem C113_load_derivatives : forall npi bq fx D Np Tp dNp dTp, (2 <= f_n fx)%nat -> x_shear D = 0 -> x_hubHt D <> 0 ->
  distributed_dv npi bq fx D = Ok (Np, Tp, dNp, dTp) ->
  forall i, (i < f_n fx)%nat -> l_dhubHt dNp i = 0 /\ l_dhubHt dTp i = 0.
Proof.
  intros npi bq fx D Np Tp dNp dTp Hn Hs _ E i Hi. unfold distributed_dv in E. destruct (loads_jac npi bq fx D) as [j|] eqn:Ej; [|discriminate].
  cbn [bind] in E. apply ok_inj in E. apply pair_equal_spec in E as [E <-]. apply pair_equal_spec in E as [E <-]. cbn [load_dict l_dhubHt].
  destruct (jac_hub npi bq fx D j Hn Hs Ej i Hi) as [-> ->]. split; ring.
Qed.
Print Assumptions C113_load_derivatives.

Theorem C113_rotor_derivatives : forall npi bq fx D E, (2 <= f_n fx)%nat -> x_shear D = 0 -> x_hubHt D <> 0 -> evaluate_dv npi bq fx D = Ok E ->
  Forall (fun e => e_dhubHt e = 0) [ev_dT E; ev_dY E; ev_dZ E; ev_dQ E; ev_dMy E; ev_dMz E; ev_dMb E; ev_dP E] /\
  (dyn (f_rho fx) D <> 0 -> rotorR_d D <> 0 ->
   (t_T (ev_tot E) <> 0 -> e_dhubHt (ev_dCT E) = 0) /\ (t_Y (ev_tot E) <> 0 -> e_dhubHt (ev_dCY E) = 0) /\
   (t_Z (ev_tot E) <> 0 -> e_dhubHt (ev_dCZ E) = 0) /\ (t_Q (ev_tot E) <> 0 -> e_dhubHt (ev_dCQ E) = 0) /\
   (t_My (ev_tot E) <> 0 -> e_dhubHt (ev_dCMy E) = 0) /\ (t_Mz (ev_tot E) <> 0 -> e_dhubHt (ev_dCMz E) = 0) /\
   (t_Mb (ev_tot E) <> 0 -> e_dhubHt (ev_dCMb E) = 0) /\ (t_Q (ev_tot E) <> 0 -> x_Omega D <> 0 -> e_dhubHt (ev_dCP E) = 0)).
Proof.
  intros npi bq fx D E Hn Hs _ HE. pose proof (evaluate_hub npi bq fx D E Hn Hs HE) as F. rewrite Forall_forall in F. split.
  - apply Forall_forall. intros e He. apply F. cbn [In] in *. tauto.
  - intros _ _. refine (conj _ (conj _ (conj _ (conj _ (conj _ (conj _ (conj _ _))))))); intros; apply F; cbn [In]; tauto.
Qed.
Print Assumptions C113_rotor_derivatives.

(** The yawed rotor of SymmetryWitness.v at 80 m and at 120 m, and the two-station rotor of BladeDvExample.v. *)
Example C113_example : forall npi, 3 < npi < PI -> exists b b' b1 y w, construct y_args = Ok b /\ construct (with_hub 120 y_args) = Ok b' /\
  b_hubHt b = 80 /\ b_hubHt b' = 120 /\ evaluate npi midpoint b [(1, 60 / PI, 2)] = Ok (b1, [Some y], w) /\ 0 < t_T (y_tot y) /\
  returned (evaluate npi midpoint b' [(1, 60 / PI, 2)]) = Ok ([Some y], w).
Proof.
  intros npi Hn. destruct midpoint_contracts as (M1 & _ & M2). destruct (y_evaluate npi midpoint 2 Hn M1 M2) as (b1 & y & w & E & HT).
  pose proof (C113_rotor npi midpoint 120 y_args eq_refl ltac:(cbn; lra) ltac:(lra)) as C. rewrite construct_hub in *. rewrite y_construct in *.
  cbn [corresponds] in C. specialize (C [(1, 60 / PI, 2)]). rewrite E in C.
  exists y_blade, (hub_blade 120 y_blade), b1, y, w. split; [reflexivity|]. split; [reflexivity|]. split; [reflexivity|]. split; [reflexivity|].
  split; [exact E|]. split; [exact HT|]. symmetry. exact C.
Qed.

Example C113_derivatives_example : forall npi, (2 <= f_n ex_fx)%nat /\ x_shear (ex_D 10) = 0 /\ x_hubHt (ex_D 10) <> 0 /\
  exists E, evaluate_dv npi ex_bq ex_fx (ex_D 10) = Ok E /\ e_dhubHt (ev_dP E) = 0.
Proof.
  intros npi. destruct (ex_evaluate 4 npi 10 ltac:(lra)) as (_ & _ & (E & HE) & _).
  assert (Hh : x_hubHt (ex_D 10) <> 0) by (cbn [x_hubHt ex_D]; lra).
  split; [cbn; lia|]. split; [reflexivity|]. split; [exact Hh|]. exists E. split; [exact HE|].
  destruct (C113_rotor_derivatives npi ex_bq ex_fx (ex_D 10) E ltac:(cbn; lia) eq_refl Hh HE) as [F _]. rewrite Forall_forall in F. apply F. cbn. tauto.
Qed.
