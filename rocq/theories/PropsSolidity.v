(** Property C106: without loss corrections only the total chord of all blades matters.

    Anchors: ccblade/src/bem.f90 inductionFactors; ccblade/ccblade.py CCBlade.distributedAeroLoads, evaluate. *)
From Coq Require Import Reals Bool Arith List Lra Lia.
From Verif Require Import Prelim CSystem CSystemSpec Num Bem Blade BladeSpec FlProofs StationProofs StationWitness StationLoads BladeProofs SectorProofs
  SectorWitness PropsStation SimilaritySpec SimilarityProofs SymmetryProofs SoliditySpec SolidityProofs.
Import ListNotations.
Open Scope R_scope.

Lemma construct_opts g b : construct g = Ok b -> b_B b = g_B g /\ b_opts b = g_opts g.
Proof.
  unfold construct. intros H. destruct (Nat.ltb (length (g_r g)) 2); [discriminate|]. cbv zeta in H. destruct (curve_error _ _ _ _ _); [discriminate|]. apply ok_inj in H. subst b.
  split; reflexivity.
Qed.
Lemma sol_of_construct n g b : (1 <= g_B g)%nat -> (1 <= n)%nat -> tipLoss (g_opts g) = false -> hubLoss (g_opts g) = false ->
  (forall f, In f (g_af g) -> ignores_Re f) -> construct g = Ok b ->
  0 < INR (g_B g) / INR n /\ no_losses (INR (g_B g) / INR n) n b.
Proof.
  intros HB Hn Ht Hh Ha E. assert (P1 : 0 < INR (g_B g)) by (apply lt_0_INR; lia). assert (P2 : 0 < INR n) by (apply lt_0_INR; lia).
  split; [apply Rdiv_lt_0_compat; assumption|]. destruct (construct_forward g b E) as [Hi _]. pose proof (construct_af g b E) as HA.
  pose proof (construct_opts g b E) as (EB & EO).
  unfold no_losses. rewrite EB, EO, HA, Hi. split; [field; lra|]. auto.
Qed.

(** C106: the same exceptions; the same induction, angles, coefficients and speeds at each station; loads per unit span and
    Reynolds number in the ratio of the chords. *)
Theorem C106_section_loads : forall npi bq n g, (1 <= g_B g)%nat -> (1 <= n)%nat -> tipLoss (g_opts g) = false -> hubLoss (g_opts g) = false ->
  (forall f, In f (g_af g) -> ignores_Re f) ->
  corresponds (fun b b' => forall U Om p az,
      corresponds (Forall2 (same_flow (INR (g_B g) / INR n))) (section_loads npi bq b U Om p az) (section_loads npi bq b' U Om p az))
    (construct g) (construct (same_solidity n g)).
Proof.
  intros npi bq n g HB Hn Ht Hh Ha. rewrite sol_construct. destruct (construct g) as [b|e] eqn:E; [|reflexivity]. cbn [corresponds]. intros U Om p az.
  destruct (sol_of_construct n g b HB Hn Ht Hh Ha E) as (Hk & Hb). unfold section_loads.
  eapply corr_bind; [exact (sol_distributed _ n npi bq Hk b U Om p az Hb)|]. intros x y [_ H]. exact H.
Qed.
Print Assumptions C106_section_loads.

(** C106: the same power, thrust, side forces, torque, moments and coefficients; the root bending moment of one blade in the
    ratio of the chords. *)
Theorem C106_rotor : forall npi bq n g, (1 <= g_B g)%nat -> (1 <= n)%nat -> tipLoss (g_opts g) = false -> hubLoss (g_opts g) = false ->
  (forall f, In f (g_af g) -> ignores_Re f) ->
  corresponds (fun b b' => forall conds,
      corresponds (fun x y => snd y = snd x /\ Forall2 (same_rotor_opt (INR (g_B g) / INR n)) (fst x) (fst y))
        (returned (evaluate npi bq b conds)) (returned (evaluate npi bq b' conds)))
    (construct g) (construct (same_solidity n g)).
Proof.
  intros npi bq n g HB Hn Ht Hh Ha. rewrite sol_construct. destruct (construct g) as [b|e] eqn:E; [|reflexivity]. cbn [corresponds]. intros conds.
  destruct (sol_of_construct n g b HB Hn Ht Hh Ha E) as (Hk & Hb). exact (sol_evaluate _ n npi bq Hk b conds Hb).
Qed.
Print Assumptions C106_rotor.

(** Two blades of chord 1 and four of chord 1/2: the same positive thrust. *)
Example C106_example : forall npi, 3 < npi < PI ->
  g_B d_args = 2%nat /\ g_chord (same_solidity 4 d_args) = [INR 2 / INR 4 * 1; INR 2 / INR 4 * 1] /\ INR 2 / INR 4 = 1 / 2 /\
  exists b b' b1 b1' y y' w, construct d_args = Ok b /\ construct (same_solidity 4 d_args) = Ok b' /\
    evaluate npi midpoint b [(1, 30 / PI, 0)] = Ok (b1, [Some y], w) /\ 0 < t_T (y_tot y) /\
    evaluate npi midpoint b' [(1, 30 / PI, 0)] = Ok (b1', [Some y'], w) /\ t_T (y_tot y') = t_T (y_tot y) /\ t_Mb (y_tot y') = 1 / 2 * t_Mb (y_tot y).
Proof.
  intros npi Hn. assert (HK : INR 2 / INR 4 = 1 / 2) by (cbn; field). split; [reflexivity|]. split; [reflexivity|]. split; [exact HK|].
  pose proof (C106_rotor npi midpoint 4 d_args ltac:(cbn; lia) ltac:(lia) eq_refl eq_refl ltac:(intros f [<-|[<-|[]]] al Re Re'; reflexivity)) as C.
  rewrite d_construct in C.
  destruct (construct (same_solidity 4 d_args)) as [b'|e]; [|contradiction C]. cbn [corresponds] in C. specialize (C [(1, 30 / PI, 0)]).
  destruct midpoint_contracts as (M1 & _ & M2). destruct (d_evaluate npi midpoint 1 0 Hn M1 M2 ltac:(lia)) as (b1 & y & w & E & HT & _).
  change (with_sectors d_blade 1) with d_blade in E. rewrite E in C.
  destruct (evaluate npi midpoint b' [(1, 30 / PI, 0)]) as [[[b1' outs] w']|e] eqn:E'; [|contradiction C]. unfold returned in C. cbn [bind corresponds fst snd] in C.
  destruct C as (-> & F). inversion F as [|o o' ? ? Ho F' E1 E2]; subst. inversion F'; subst. destruct o' as [y'|]; [|contradiction Ho].
  exists d_blade, b', b1, b1', y, y', w. split; [exact d_construct|]. split; [reflexivity|]. split; [exact E|]. split; [exact HT|]. split; [exact E'|].
  destruct Ho as (H1 & _ & _ & _ & _ & _ & H7 & _). change (g_B d_args) with 2%nat in H7. rewrite HK in H7. auto.
Qed.
