(** Properties C110 and C111: which inputs the load of a station depends on.

    Anchors: ccblade/ccblade.py CCBlade.distributedAeroLoads; ccblade/src/bem.f90 defineCurvature, windComponents. *)
From Coq Require Import Reals Bool Arith List Lra Lia.
From Verif Require Import Prelim Num Bem Blade FlProofs StationProofs StationLoads InterpSpec StationWitness SectorWitness SimilaritySpec ParkedWitness LocalSpec LocalProofs LocalWitness
  LengthSpec EnoughProofs TwistWitness PropsStation PropsComponent.
Import ListNotations.
Open Scope R_scope.

(** C110. Two rotors that differ only in chords, twists and airfoils report the same load at every station where
    these agree. *)
Theorem C110_section : forall npi bq g1 g2 b1 b2 U Om p az l1 l2 i, construct g1 = Ok b1 -> construct g2 = Ok b2 -> same_scalars g1 g2 ->
  g_r g1 = g_r g2 -> g_precurve g1 = g_precurve g2 -> g_precurveTip g1 = g_precurveTip g2 -> g_presweep g1 = g_presweep g2 -> g_presweepTip g1 = g_presweepTip g2 ->
  section_loads npi bq b1 U Om p az = Ok l1 -> section_loads npi bq b2 U Om p az = Ok l2 ->
  same_section g1 i g2 i -> nth_error l1 i = nth_error l2 i.
Proof. exact local_section. Qed.
Print Assumptions C110_section.

(** C110. If the stations may move too, the load at a station is fixed by its section, its place and the places of the
    two stations next to it. *)
Theorem C110_neighbours : forall npi bq g1 g2 b1 b2 U Om p az l1 l2 i, construct g1 = Ok b1 -> construct g2 = Ok b2 -> same_scalars g1 g2 ->
  ends_free g1 -> ends_free g2 -> length (g_r g1) = length (g_r g2) ->
  section_loads npi bq b1 U Om p az = Ok l1 -> section_loads npi bq b2 U Om p az = Ok l2 ->
  same_section g1 i g2 i -> same_place g1 i g2 i -> ((0 < i)%nat -> same_place g1 (i - 1) g2 (i - 1)) -> same_place g1 (i + 1) g2 (i + 1) ->
  nth_error l1 i = nth_error l2 i.
Proof. exact local_neighbours. Qed.
Print Assumptions C110_neighbours.

(** C110. On a blade without precurve the load at a station is fixed by its own section and place; the two rotors may have
    different numbers of stations. *)
Theorem C110_straight : forall npi bq g1 g2 b1 b2 U Om p az l1 l2 i j, construct g1 = Ok b1 -> construct g2 = Ok b2 -> same_scalars g1 g2 ->
  ends_free g1 -> ends_free g2 -> g_precurve g1 = None -> g_precurve g2 = None -> increasing (g_r g1) -> increasing (g_r g2) -> - 180 < g_precone g1 <= 180 ->
  section_loads npi bq b1 U Om p az = Ok l1 -> section_loads npi bq b2 U Om p az = Ok l2 ->
  (i < length (g_r g1))%nat -> same_section g1 i g2 j -> same_place g1 i g2 j -> nth_error l1 i = nth_error l2 j.
Proof. exact local_straight. Qed.
Print Assumptions C110_straight.

(** Two rotors that differ in the chord of the outer station. *)
Example C110_example : forall npi bq, exists l1 l2,
  construct (c_args 1 1) = Ok (c_blade 1 1) /\ construct (c_args 1 7) = Ok (c_blade 1 7) /\
  section_loads npi bq (c_blade 1 1) 10 0 0 0 = Ok l1 /\ section_loads npi bq (c_blade 1 7) 10 0 0 0 = Ok l2 /\
  g_chord (c_args 1 1) <> g_chord (c_args 1 7) /\ nth_error l1 0 = nth_error l2 0 /\ nth_error l1 0 <> None.
Proof.
  intros npi bq. destruct (c_loads npi bq 1 1) as (a0 & a1 & E1 & _). destruct (c_loads npi bq 1 7) as (b0 & b1 & E2 & _).
  exists [a0; a1], [b0; b1]. split; [apply c_construct|]. split; [apply c_construct|]. split; [exact E1|]. split; [exact E2|]. split.
  { cbn. intros H. injection H. lra. }
  split; [|discriminate].
  apply (C110_section npi bq (c_args 1 1) (c_args 1 7) _ _ 10 0 0 0 _ _ 0%nat (c_construct 1 1) (c_construct 1 7)); try reflexivity; try assumption.
  - unfold same_scalars. cbn. repeat split.
  - unfold same_section. cbn. repeat split.
Qed.

(** Two straight rotors of two and of three stations that share the outer one. *)
Definition three_args : args := mkArgs [1; 3 / 2; 2] [1; 5; 1] [0; 3; 0] [drag_af; drag_af; drag_af] (1 / 2) 3 2 1 1 0 0 45 0 80 4 None 0 None 0 off 1.
Lemma three_construct : exists b, construct three_args = Ok b.
Proof. eexists. unfold construct. cbn [three_args g_r g_precurve g_presweep length Nat.ltb Nat.leb curve_error tip_error map Nat.eqb negb andb]. reflexivity. Qed.
Example C110_straight_example : exists b l1 l2, construct (p_args 45) = Ok (p_blade 45) /\ construct three_args = Ok b /\
  section_loads 3 midpoint (p_blade 45) 10 5 2 30 = Ok l1 /\ section_loads 3 midpoint b 10 5 2 30 = Ok l2 /\ length l1 = 2%nat /\ length l2 = 3%nat /\
  nth_error l1 1 = nth_error l2 2.
Proof.
  destruct three_construct as (b & E).
  assert (R : forall g b', construct g = Ok b' -> g_precurve g = None -> g_presweep g = None -> (length (g_r g) <= complete_stations g)%nat -> g_iterRe g = 1%nat ->
    exists l, section_loads 3 midpoint b' 10 5 2 30 = Ok l /\ length l = length (g_r g)).
  { intros g b' C N1 N2 L I1. destruct (complete_returns 3 midpoint midpoint_tame g b' C) as (X & _); [rewrite N1; exact I|rewrite N2; exact I|exact L|lia|].
    destruct (X 10 5 2 30 ltac:(lra)) as (b'' & ls & D & Ln). exists ls. unfold section_loads. rewrite D. split; [reflexivity|exact Ln]. }
  destruct (R _ _ (p_construct 45) eq_refl eq_refl ltac:(cbn; lia) eq_refl) as (l1 & L1 & N1). destruct (R _ _ E eq_refl eq_refl ltac:(cbn; lia) eq_refl) as (l2 & L2 & N2).
  exists b, l1, l2. refine (conj (p_construct 45) (conj E (conj L1 (conj L2 (conj N1 (conj N2 _)))))).
  apply (C110_straight 3 midpoint (p_args 45) three_args _ _ 10 5 2 30 _ _ 1%nat 2%nat (p_construct 45) E); try assumption; try reflexivity; try (cbn; lra); try (cbn; lia).
  - unfold same_scalars; cbn; repeat split.
  - unfold ends_free; cbn; repeat split; lra.
  - unfold ends_free; cbn; repeat split; lra.
  - intros [|[|i]] [|[|j]] Hij; cbn in *; lra || lia.
  - intros [|[|[|i]]] [|[|[|j]]] Hij; cbn in *; lra || lia.
  - unfold same_section; cbn; repeat split.
  - unfold same_place; cbn; repeat split.
Qed.

(** C111, the claim: the load of a station is fixed by its own section and place on every blade. *)
Definition own_place_decides : Prop := forall npi bq g1 g2 b1 b2 U Om p az l1 l2 i, construct g1 = Ok b1 -> construct g2 = Ok b2 -> same_scalars g1 g2 ->
  ends_free g1 -> ends_free g2 -> length (g_r g1) = length (g_r g2) ->
  section_loads npi bq b1 U Om p az = Ok l1 -> section_loads npi bq b2 U Om p az = Ok l2 ->
  same_section g1 i g2 i -> same_place g1 i g2 i -> nth_error l1 i = nth_error l2 i.

(** C111. It is false on a precurved blade: the cone angle of a station is that of the polygon through its neighbours. *)
Theorem C111_own_place_refuted : ~ own_place_decides.
Proof.
  intros H. set (bq := fun (_ : fl -> fl) (_ _ : fl) => @Raise fl ValueError).
  destruct (c_loads 3 bq 0 1) as (a0 & a1 & E1 & Q1). destruct (c_loads 3 bq 1 1) as (b0 & b1 & E2 & Q2).
  assert (E : nth_error [a0; a1] 0 = nth_error [b0; b1] 0).
  { apply (H 3 bq (c_args 0 1) (c_args 1 1) _ _ 10 0 0 0 _ _ 0%nat (c_construct 0 1) (c_construct 1 1)); try apply c_free; try reflexivity; try assumption.
    - unfold same_scalars. cbn. repeat split.
    - unfold same_section. cbn. repeat split.
    - unfold same_place. cbn. repeat split. }
  cbn in E. injection E; intros <-. exact (c_differ _ (rep_fun _ _ _ Q1 Q2)).
Qed.
Print Assumptions C111_own_place_refuted.
