(** Property theorems about similar rotors and symmetries of whole-rotor calls (C83-C86). *)
From Coq Require Import Reals Bool Arith List Lra Lia.
From Verif Require Import Prelim CSystem CSystemSpec Num Bem Blade BladeSpec FlProofs StationProofs StationWitness StationLoads BladeProofs SectorProofs
  SectorWitness PropsStation SimilaritySpec SimilarityProofs SymmetryProofs SymmetryWitness.
Import ListNotations.
Open Scope R_scope.

(** C83. *)
Theorem C83_section_loads : forall s npi bq g, proper s -> reynolds_ok s (g_af g) ->
  corresponds (fun b b' => forall U Om p az,
      corresponds (Forall2 (similar_load s)) (section_loads npi bq b U Om p az) (section_loads npi bq b' (vel s * U) (vel s / len s * Om) p az))
    (construct g) (construct (similar_args s g)).
Proof.
  intros s npi bq g Hs Hre. rewrite sim_construct by (destruct Hs; lra). destruct (construct g) as [b|e] eqn:E; [|reflexivity]. cbn [corresponds]. intros U Om p az.
  assert (HA : b_af b = g_af g) by exact (construct_af g b E).
  pose proof (sim_distributed s npi bq b U Om p az Hs ltac:(rewrite HA; exact Hre)) as D. unfold section_loads.
  eapply corr_bind; [exact D|]. intros x y [_ H]. exact H.
Qed.
Print Assumptions C83_section_loads.

Theorem C83_rotor : forall s npi bq g, proper s -> reynolds_ok s (g_af g) ->
  corresponds (fun b b' => forall conds,
      corresponds (fun x y => snd y = map (scaled (vel s)) (snd x) /\ Forall2 (similar_opt s) (fst x) (fst y) /\
          (g_rho g <> 0 -> b_rotorR b <> 0 -> (forall c, In c conds -> fst (fst c) <> 0) ->
           Forall2 (fun o o' => match o, o' with Some a, Some b => same_coefficients a b | None, None => True | _, _ => False end) (fst x) (fst y)))
        (returned (evaluate npi bq b conds)) (returned (evaluate npi bq b' (map (similar_condition s) conds))))
    (construct g) (construct (similar_args s g)).
Proof.
  intros s npi bq g Hs Hre. rewrite sim_construct by (destruct Hs; lra). destruct (construct g) as [b|e] eqn:E; [|reflexivity]. cbn [corresponds]. intros conds.
  assert (HA : b_af b = g_af g) by exact (construct_af g b E). assert (HR : b_rho b = g_rho g) by exact (construct_rho g b E).
  pose proof (sim_evaluate s npi bq b conds Hs ltac:(rewrite HA; exact Hre)) as D. rewrite HR in D. unfold returned.
  eapply corr_bind; [exact D|]. intros x y (_ & H1 & H2 & H3). cbn [corresponds fst snd]. auto.
Qed.
Print Assumptions C83_rotor.

(** Twice the size, three times the speed, half the density: the airfoils of this rotor ignore the Reynolds number, and the
    viscosity that keeps the Reynolds number is allowed for any airfoils. Both rotors carry a thrust. *)
Example C83_example : forall npi, 3 < npi < PI -> let s := mkScales 2 3 (1 / 2) 7 in
  proper s /\ reynolds_ok s (g_af d_args) /\ (forall af, reynolds_ok (mkScales 2 3 (1 / 2) 3) af) /\ force s = 18 /\
  exists b b' b1 b1' y y' w w', construct d_args = Ok b /\ construct (similar_args s d_args) = Ok b' /\ g_r (similar_args s d_args) = [2 * 1; 2 * 2] /\
    evaluate npi midpoint b [(1, 30 / PI, 0)] = Ok (b1, [Some y], w) /\ 0 < t_T (y_tot y) /\
    evaluate npi midpoint b' [(3 * 1, 3 / 2 * (30 / PI), 0)] = Ok (b1', [Some y'], w') /\ t_T (y_tot y') = 18 * t_T (y_tot y) /\
    b_rho b <> 0 /\ b_rotorR b <> 0.
Proof.
  intros npi Hn s. assert (Hs : proper s) by (unfold proper, s; cbn; lra).
  assert (Hre : reynolds_ok s (g_af d_args)) by (right; intros f [<-|[<-|[]]] al Re Re'; reflexivity).
  assert (HF : force s = 18) by (unfold force, s; cbn [len vel den]; field).
  split; [exact Hs|]. split; [exact Hre|]. split; [intros af; left; cbn; lra|]. split; [exact HF|].
  pose proof (C83_rotor s npi midpoint d_args Hs Hre) as C. rewrite d_construct in C.
  destruct (construct (similar_args s d_args)) as [b'|e]; [|contradiction C]. cbn [corresponds] in C. specialize (C [(1, 30 / PI, 0)]). change (map (similar_condition s) [(1, 30 / PI, 0)]) with [(3 * 1, 3 / 2 * (30 / PI), 0)] in C.
  destruct midpoint_contracts as (M1 & _ & M2). destruct (d_evaluate npi midpoint 1 0 Hn M1 M2 ltac:(lia)) as (b1 & y & w & E & HT & _).
  change (with_sectors d_blade 1) with d_blade in E. rewrite E in C.
  destruct (evaluate npi midpoint b' [(3 * 1, 3 / 2 * (30 / PI), 0)]) as [[[b1' outs] w']|e] eqn:E'; [|contradiction C]. unfold returned in C. cbn [bind corresponds fst snd] in C.
  destruct C as (_ & F & _). inversion F as [|o o' ? ? Ho F' E1 E2]; subst. inversion F'; subst. destruct o' as [y'|]; [|contradiction Ho].
  exists d_blade, b', b1, b1', y, y', w, w'. split; [exact d_construct|]. split; [reflexivity|]. split; [reflexivity|]. split; [exact E|]. split; [exact HT|]. split; [exact E'|].
  split; [|split; cbn; lra]. destruct Ho as (Ho & _). rewrite Ho, HF. reflexivity.
Qed.

(** C84: for every condition whose outputs are finite. *)
Theorem C84_azimuthal_mean : forall npi bq b conds b' outs w i U Om p y, b_inverse b = false -> (1 <= b_nSector b)%nat ->
  evaluate npi bq b conds = Ok (b', outs, w) -> nth_error conds i = Some (U, Om, p) -> nth_error outs i = Some (Some y) ->
  let n := b_nSector b in let az k := INR k * 360 / INR n in
  exists (ls : nat -> list (sload fl)) (Np Tp : nat -> list R),
    (forall k, (k < n)%nat -> section_loads npi bq b U Om p (az k) = Ok (ls k) /\
       Forall2 (fun l v => fval (o_Np l) = Some v) (ls k) (Np k) /\ Forall2 (fun l v => fval (o_Tp l) = Some v) (ls k) (Tp k)) /\
    let F k := in_hub_frame (az k) (blade_force b (Np k) (Tp k)) in
    let M k := in_hub_frame (az k) (blade_moment b (Np k) (Tp k)) in
    let mean f := total n f / INR n in
    let t := y_tot y in
    t_T t = INR (b_B b) * mean (fun k => c1 (F k)) /\ t_Y t = INR (b_B b) * mean (fun k => c2 (F k)) /\ t_Z t = INR (b_B b) * mean (fun k => c3 (F k)) /\
    t_Q t = INR (b_B b) * mean (fun k => c1 (M k)) /\ t_My t = INR (b_B b) * mean (fun k => c2 (M k)) /\ t_Mz t = INR (b_B b) * mean (fun k => c3 (M k)) /\
    t_Mb t = mean (fun k => c2 (blade_moment b (Np k) (Tp k))).
Proof. exact azimuthal_mean. Qed.
Print Assumptions C84_azimuthal_mean.

(** A yawed rotor, four sectors, positive thrust. *)
Example C84_example : forall npi, 3 < npi < PI -> exists b b' y w, construct y_args = Ok b /\ b_inverse b = false /\ b_nSector b = 4%nat /\
  evaluate npi midpoint b [(1, 60 / PI, 0)] = Ok (b', [Some y], w) /\ 0 < t_T (y_tot y).
Proof.
  intros npi Hn. destruct midpoint_contracts as (M1 & _ & M2). destruct (y_evaluate npi midpoint 0 Hn M1 M2) as (b' & y & w & E & HT).
  exists y_blade, b', y, w. split; [exact y_construct|]. auto.
Qed.

(** C85: the same exceptions, the same section loads, the same outputs. *)
Theorem C85_section_loads : forall npi bq d g,
  corresponds (fun b b' => forall U Om p az, section_loads npi bq b U Om (p + d) az = section_loads npi bq b' U Om p az)
    (construct g) (construct (twisted d g)).
Proof.
  intros npi bq d g. rewrite construct_twisted. destruct (construct g) as [b|e] eqn:E; [|reflexivity]. cbn [corresponds]. intros U Om p az.
  destruct (construct_forward g b E) as [Hi Ht]. apply dal_twisted; assumption.
Qed.
Print Assumptions C85_section_loads.

Theorem C85_rotor : forall npi bq d g,
  corresponds (fun b b' => forall conds,
      returned (evaluate npi bq b (map (fun c => let '(U, Om, p) := c in (U, Om, p + d)) conds)) = returned (evaluate npi bq b' conds))
    (construct g) (construct (twisted d g)).
Proof.
  intros npi bq d g. rewrite construct_twisted. destruct (construct g) as [b|e] eqn:E; [|reflexivity]. cbn [corresponds]. intros conds.
  destruct (construct_forward g b E) as [Hi Ht].
  apply (evaluate_same npi bq b (twist_blade d b) (fun c => let '(U, Om, p) := c in (U, Om, p + d)) Hi Hi eq_refl).
  - intros [[U Om] p] az. apply dal_twisted; assumption.
  - reflexivity.
  - intros [[U Om] p] t. reflexivity.
Qed.
Print Assumptions C85_rotor.

(** The twists really change, and the calls succeed with a positive thrust. *)
Example C85_example : forall npi, 3 < npi < PI -> exists b b' b1 y w, construct y_args = Ok b /\ construct (twisted 5 y_args) = Ok b' /\ g_theta (twisted 5 y_args) = [0 + 5; 0 + 5] /\
  evaluate npi midpoint b [(1, 60 / PI, 2 + 5)] = Ok (b1, [Some y], w) /\ 0 < t_T (y_tot y) /\
  returned (evaluate npi midpoint b' [(1, 60 / PI, 2)]) = Ok ([Some y], w).
Proof.
  intros npi Hn. destruct midpoint_contracts as (M1 & _ & M2). destruct (y_evaluate npi midpoint (2 + 5) Hn M1 M2) as (b1 & y & w & E & HT).
  pose proof (C85_rotor npi midpoint 5 y_args) as C. rewrite y_construct in C. destruct (construct (twisted 5 y_args)) as [b'|]; [|contradiction C].
  cbn [corresponds] in C. specialize (C [(1, 60 / PI, 2)]). cbn [map] in C. rewrite E in C.
  exists y_blade, b', b1, y, w. split; [exact y_construct|]. split; [reflexivity|]. split; [reflexivity|]. split; [exact E|]. split; [exact HT|]. symmetry. exact C.
Qed.

(** C86: azimuth angles that differ by a full turn give the same call, in either mode. *)
Theorem C86_full_turn : forall npi bq b U Om p az, distributedAeroLoads npi bq b U Om p (az + 360) = distributedAeroLoads npi bq b U Om p az.
Proof. exact dal_period. Qed.
Print Assumptions C86_full_turn.

(** Without shear, reversing yaw and tilt is half a turn of the azimuth. *)
Theorem C86_half_turn : forall npi bq g, g_shearExp g = 0 ->
  corresponds (fun b b' => forall U Om p az, section_loads npi bq b' U Om p az = section_loads npi bq b U Om p (az + 180))
    (construct g) (construct (reversed g)).
Proof.
  intros npi bq g Hs. rewrite construct_reversed. destruct (construct g) as [b|e] eqn:E; [|reflexivity]. cbn [corresponds]. intros U Om p az.
  apply loads_reversed. rewrite (construct_shear g b E). exact Hs.
Qed.
Print Assumptions C86_half_turn.

(** For an even number of sectors the loads in the rotor plane change sign and the others stay. *)
Theorem C86_reversed_rotor : forall npi bq g b b' conds b1 outs w, g_shearExp g = 0 -> construct g = Ok b -> construct (reversed g) = Ok b' ->
  Nat.Even (b_nSector b) -> evaluate npi bq b conds = Ok (b1, outs, w) ->
  exists b2 outs' w', evaluate npi bq b' conds = Ok (b2, outs', w') /\ length outs' = length outs /\
    forall i U Om p o o', nth_error conds i = Some (U, Om, p) -> nth_error outs i = Some o -> nth_error outs' i = Some o' ->
      opposite_opt (g_rho g <> 0 /\ U <> 0 /\ b_rotorR b <> 0) o o'.
Proof.
  intros npi bq g b b' conds b1 outs w Hs E E' Hev HE. rewrite construct_reversed, E in E'. apply ok_inj in E'. subst b'.
  destruct (construct_forward g b E) as [Hi _]. rewrite <- (construct_shear g b E) in Hs. rewrite <- (construct_rho g b E).
  assert (Hn : (1 <= b_nSector b)%nat) by exact (construct_sectors g b E).
  exact (reversed_evaluate npi bq b conds b1 outs w Hi Hs Hev Hn HE).
Qed.
Print Assumptions C86_reversed_rotor.

Example C86_example : forall npi, 3 < npi < PI -> g_shearExp y_args = 0 /\ g_yaw y_args = 30 /\ exists b b' b1 y w, construct y_args = Ok b /\ construct (reversed y_args) = Ok b' /\
  Nat.Even (b_nSector b) /\ evaluate npi midpoint b [(1, 60 / PI, 0)] = Ok (b1, [Some y], w) /\ 0 < t_T (y_tot y).
Proof.
  intros npi Hn. split; [reflexivity|]. split; [reflexivity|]. destruct midpoint_contracts as (M1 & _ & M2). destruct (y_evaluate npi midpoint 0 Hn M1 M2) as (b1 & y & w & E & HT).
  exists y_blade, (reverse_blade y_blade), b1, y, w. split; [exact y_construct|]. split; [rewrite construct_reversed, y_construct; reflexivity|].
  split; [exists 2%nat; reflexivity|]. auto.
Qed.
