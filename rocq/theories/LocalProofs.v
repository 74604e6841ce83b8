(** Lemmas for C110. *)
From Coquelicot Require Import Coquelicot.
From Coq Require Import Reals Bool Arith List Lra Lia.
From Verif Require Import Prelim Num Interp Bem BemGeomSpec BemGeomProofs Blade BladeSpec FlProofs StationProofs InterpSpec ConstructProofs BladeProofs SectorProofs
  SimilaritySpec SimilarityProofs SymmetryProofs BladeDvProofs PolarProofs TwistProofs BetzRotor LocalSpec.
Import ListNotations.
Open Scope R_scope.

(** The loop body sees the object only at its own index. *)
Lemma station_same npi bq b1 b2 p Om (V1 V2 : arr * arr) i j : b_inverse b1 = false -> b_inverse b2 = false -> rotor_of b1 p = rotor_of b2 p ->
  nth_error (b_r b1) i = nth_error (b_r b2) j -> nth_error (b_chord b1) i = nth_error (b_chord b2) j ->
  nth_error (b_theta b1) i = nth_error (b_theta b2) j -> nth_error (b_af b1) i = nth_error (b_af b2) j ->
  fst V1 i = fst V2 j -> snd V1 i = snd V2 j ->
  station_i npi bq b1 p Om V1 i = station_i npi bq b2 p Om V2 j.
Proof.
  intros I1 I2 ER E1 E2 E3 E4 W1 W2. unfold station_i, pyget. cbv zeta. rewrite I1, I2, ER, E1, E2, E3, E4, W1, W2. reflexivity.
Qed.

(** The inflow at a station depends on its place and its cone angle only. *)
Lemma wind_same n1 n2 r1 r2 c1 c2 s1 s2 pc yaw tilt az U Om H sh i j : r1 i = r2 j -> c1 i = c2 j -> s1 i = s2 j ->
  curv_cone n1 (curv_x r1 c1 pc) (curv_z r1 c1 pc) i = curv_cone n2 (curv_x r2 c2 pc) (curv_z r2 c2 pc) j ->
  fst (windComponents n1 r1 c1 s1 pc yaw tilt az U Om H sh) i = fst (windComponents n2 r2 c2 s2 pc yaw tilt az U Om H sh) j /\
  snd (windComponents n1 r1 c1 s1 pc yaw tilt az U Om H sh) i = snd (windComponents n2 r2 c2 s2 pc yaw tilt az U Om H sh) j.
Proof.
  intros E1 E2 E3 EC. unfold windComponents, defineCurvature. cbv beta iota zeta. cbn [fst snd]. rewrite EC.
  unfold curv_x, curv_y, curv_z in *. rewrite E1, E2, E3. split; reflexivity.
Qed.

Lemma loads_nth npi bq b U Om p az ls i : section_loads npi bq b U Om p az = Ok ls -> (i < length (b_r b))%nat ->
  exists x, station_i npi bq b (radians p) Om (wind b U Om (radians az)) i = Ok x /\ nth_error ls i = Some (snd x).
Proof.
  intros SL Hi. unfold section_loads in SL. apply bind_ok in SL. destruct SL as ((b' & ls') & D & SL). apply ok_inj in SL. cbn [snd] in SL. subst ls'.
  unfold distributedAeroLoads in D. destruct (negb (shapes_ok b)); [discriminate|]. cbv zeta in D.
  apply bind_ok in D. destruct D as (ys & EM & D). apply ok_inj in D. apply (f_equal snd) in D. cbn [snd] in D. subst ls.
  pose proof (mapM_length _ _ _ EM) as L. rewrite seq_length in L.
  pose proof (mapM_nth _ _ _ 0%nat (Fin 0, zero_load) EM i ltac:(rewrite seq_length; lia)) as S.
  rewrite seq_nth in S by lia. cbn [Nat.add] in S. exists (nth i ys (Fin 0, zero_load)). split; [exact S|].
  rewrite nth_error_map, (nth_error_nth' ys (Fin 0, zero_load)) by lia. reflexivity.
Qed.
Lemma loads_length npi bq b U Om p az ls : section_loads npi bq b U Om p az = Ok ls -> length ls = length (b_r b).
Proof.
  intros SL. unfold section_loads in SL. apply bind_ok in SL. destruct SL as ((b' & ls') & D & SL). apply ok_inj in SL. cbn [snd] in SL. subst ls'.
  unfold distributedAeroLoads in D. destruct (negb (shapes_ok b)); [discriminate|]. cbv zeta in D.
  apply bind_ok in D. destruct D as (ys & EM & D). apply ok_inj in D. apply (f_equal snd) in D. cbn [snd] in D. subst ls.
  rewrite map_length, (mapM_length _ _ _ EM). apply seq_length.
Qed.

(** ** The constructed object *)
Lemma construct_ok g b : construct g = Ok b -> b_inverse b = false /\ b_chord b = g_chord g /\ b_theta b = map (fun x => Fin (radians x)) (g_theta g) /\
  b_af b = g_af g /\ (forall p, rotor_of b p = mkRotor (Fin (g_Rhub g)) (Fin (g_Rtip g)) (g_B g) (Fin (g_rho g)) (Fin (g_mu g)) (g_opts g) (g_iterRe g) (Fin p)) /\
  b_precone b = radians (g_precone g) /\ b_tilt b = radians (g_tilt g) /\ b_yaw b = radians (g_yaw g) /\ b_shearExp b = g_shearExp g /\ b_hubHt b = g_hubHt g.
Proof.
  unfold construct. destruct (Nat.ltb _ _); [discriminate|]. cbv zeta. destruct (curve_error _ _ _ _ _); [discriminate|].
  intros E. apply ok_inj in E. subst b. unfold rotor_of. cbn. repeat split.
Qed.

Lemma construct_geometry g1 g2 b1 b2 : construct g1 = Ok b1 -> construct g2 = Ok b2 -> g_r g1 = g_r g2 -> g_Rhub g1 = g_Rhub g2 -> g_Rtip g1 = g_Rtip g2 ->
  g_precurve g1 = g_precurve g2 -> g_precurveTip g1 = g_precurveTip g2 -> g_presweep g1 = g_presweep g2 -> g_presweepTip g1 = g_presweepTip g2 ->
  b_r b1 = b_r b2 /\ b_precurve b1 = b_precurve b2 /\ b_presweep b1 = b_presweep b2.
Proof.
  intros H1 H2 E1 E2 E3 E4 E5 E6 E7. unfold construct in H1, H2. cbv zeta in H1, H2. rewrite E1, E2, E3, E4, E5, E6, E7 in H1.
  destruct (Nat.ltb _ _); [discriminate|]. destruct (curve_error _ _ _ _ _); [discriminate|].
  apply ok_inj in H1, H2. subst b1 b2. cbn. repeat split.
Qed.

Lemma construct_free g b : construct g = Ok b -> ends_free g -> b_r b = g_r g /\ (forall i, aget (b_precurve b) i = entry (g_precurve g) i) /\
  (forall i, aget (b_presweep b) i = entry (g_presweep g) i).
Proof.
  intros H (N1 & N2 & N3 & N4). unfold construct in H. destruct (Nat.ltb _ _); [discriminate|]. cbv zeta in H. destruct (curve_error _ _ _ _ _); [discriminate|].
  apply ok_inj in H. subst b. cbn [b_r b_precurve b_presweep]. unfold aget, entry.
  replace (reqb (g_Rhub g) (hd 0 (g_r g))) with false by (symmetry; apply reqb_false; exact N1).
  replace (reqb (g_Rtip g) (last (g_r g) 0)) with false by (symmetry; apply reqb_false; exact N2). split; [reflexivity|]. split; intros i.
  - destruct (g_precurve g) as [l|].
    + replace (reqb (g_precurveTip g) (last l 0)) with false by (symmetry; apply reqb_false; exact N3). reflexivity.
    + rewrite zeros_last. apply nth_zeros.
  - destruct (g_presweep g) as [l|].
    + replace (reqb (g_presweepTip g) (last l 0)) with false by (symmetry; apply reqb_false; exact N4). reflexivity.
    + rewrite zeros_last. apply nth_zeros.
Qed.

Lemma map_same {X Y} (f : X -> Y) l1 l2 i j : nth_error l1 i = nth_error l2 j -> nth_error (map f l1) i = nth_error (map f l2) j.
Proof. intros E. rewrite !nth_error_map, E. reflexivity. Qed.

(** From equal inflow to equal loads. *)
Lemma loads_same npi bq g1 g2 b1 b2 U Om p az l1 l2 i j : construct g1 = Ok b1 -> construct g2 = Ok b2 -> same_scalars g1 g2 -> same_section g1 i g2 j ->
  section_loads npi bq b1 U Om p az = Ok l1 -> section_loads npi bq b2 U Om p az = Ok l2 ->
  (i < length (b_r b1))%nat -> (j < length (b_r b2))%nat -> nth_error (b_r b1) i = nth_error (b_r b2) j ->
  aget (b_precurve b1) i = aget (b_precurve b2) j -> aget (b_presweep b1) i = aget (b_presweep b2) j ->
  curv_cone (length (b_r b1)) (curv_x (aget (b_r b1)) (aget (b_precurve b1)) (b_precone b1)) (curv_z (aget (b_r b1)) (aget (b_precurve b1)) (b_precone b1)) i =
  curv_cone (length (b_r b2)) (curv_x (aget (b_r b2)) (aget (b_precurve b2)) (b_precone b2)) (curv_z (aget (b_r b2)) (aget (b_precurve b2)) (b_precone b2)) j ->
  nth_error l1 i = nth_error l2 j.
Proof.
  intros C1 C2 (S1 & S2 & S3 & S4 & S5 & S6 & S7 & S8 & S9 & S10 & S11 & S12) (T1 & T2 & T3) L1 L2 Hi Hj Er Ec Es Ecn.
  destruct (construct_ok _ _ C1) as (I1 & A1 & A2 & A3 & A4 & A5 & A6 & A7 & A8 & A9).
  destruct (construct_ok _ _ C2) as (I2 & B1 & B2 & B3 & B4 & B5 & B6 & B7 & B8 & B9).
  destruct (loads_nth _ _ _ _ _ _ _ _ _ L1 Hi) as (x1 & X1 & ->). destruct (loads_nth _ _ _ _ _ _ _ _ _ L2 Hj) as (x2 & X2 & ->).
  assert (P : b_precone b1 = b_precone b2) by congruence.
  assert (Er' : aget (b_r b1) i = aget (b_r b2) j). { unfold aget. rewrite <- !nth_default_eq. unfold nth_default. rewrite Er. reflexivity. }
  rewrite <- P in Ecn.
  destruct (wind_same (length (b_r b1)) (length (b_r b2)) _ _ _ _ _ _ (b_precone b1) (b_yaw b1) (b_tilt b1) (radians az) U Om (b_hubHt b1) (b_shearExp b1) i j Er' Ec Es Ecn) as (W1 & W2).
  assert (E : station_i npi bq b1 (radians p) Om (wind b1 U Om (radians az)) i = station_i npi bq b2 (radians p) Om (wind b2 U Om (radians az)) j).
  { assert (EQ : rotor_of b1 (radians p) = rotor_of b2 (radians p)) by (rewrite A4, B4, S1, S2, S3, S4, S5, S11, S12; reflexivity).
    assert (ET : nth_error (b_theta b1) i = nth_error (b_theta b2) j) by (rewrite A2, B2; apply map_same; exact T2).
    apply station_same; [exact I1|exact I2|exact EQ|exact Er|congruence|exact ET|congruence| |]; unfold wind.
    all: replace (b_precone b2) with (b_precone b1).
    all: replace (b_yaw b2) with (b_yaw b1) by congruence; replace (b_tilt b2) with (b_tilt b1) by congruence.
    all: replace (b_hubHt b2) with (b_hubHt b1) by congruence; replace (b_shearExp b2) with (b_shearExp b1) by congruence; assumption. }
  rewrite E, X2 in X1. apply ok_inj in X1. subst x2. reflexivity.
Qed.

(** ** C110 *)
Lemma local_section : forall npi bq g1 g2 b1 b2 U Om p az l1 l2 i, construct g1 = Ok b1 -> construct g2 = Ok b2 -> same_scalars g1 g2 ->
  g_r g1 = g_r g2 -> g_precurve g1 = g_precurve g2 -> g_precurveTip g1 = g_precurveTip g2 -> g_presweep g1 = g_presweep g2 -> g_presweepTip g1 = g_presweepTip g2 ->
  section_loads npi bq b1 U Om p az = Ok l1 -> section_loads npi bq b2 U Om p az = Ok l2 ->
  same_section g1 i g2 i -> nth_error l1 i = nth_error l2 i.
Proof.
  intros npi bq g1 g2 b1 b2 U Om p az l1 l2 i C1 C2 SS E1 E2 E3 E4 E5 L1 L2 HS.
  destruct (construct_geometry g1 g2 b1 b2 C1 C2 E1 (proj1 SS) (proj1 (proj2 SS)) E2 E3 E4 E5) as (G1 & G2 & G3).
  destruct (construct_ok _ _ C1) as (_ & _ & _ & _ & _ & A5 & _). destruct (construct_ok _ _ C2) as (_ & _ & _ & _ & _ & B5 & _).
  assert (P : b_precone b1 = b_precone b2) by (rewrite A5, B5; f_equal; apply SS).
  destruct (le_lt_dec (length (b_r b1)) i) as [H|H].
  - rewrite (proj2 (nth_error_None l1 i)), (proj2 (nth_error_None l2 i)); [reflexivity| |].
    + rewrite (loads_length _ _ _ _ _ _ _ _ L2), <- G1. exact H.
    + rewrite (loads_length _ _ _ _ _ _ _ _ L1). exact H.
  - apply (loads_same npi bq g1 g2 b1 b2 U Om p az); try assumption; try congruence.
Qed.

Lemma local_neighbours : forall npi bq g1 g2 b1 b2 U Om p az l1 l2 i, construct g1 = Ok b1 -> construct g2 = Ok b2 -> same_scalars g1 g2 ->
  ends_free g1 -> ends_free g2 -> length (g_r g1) = length (g_r g2) ->
  section_loads npi bq b1 U Om p az = Ok l1 -> section_loads npi bq b2 U Om p az = Ok l2 ->
  same_section g1 i g2 i -> same_place g1 i g2 i -> ((0 < i)%nat -> same_place g1 (i - 1) g2 (i - 1)) -> same_place g1 (i + 1) g2 (i + 1) ->
  nth_error l1 i = nth_error l2 i.
Proof.
  intros npi bq g1 g2 b1 b2 U Om p az l1 l2 i C1 C2 SS F1 F2 EL L1 L2 HS (P1 & P2 & P3) PM (N1 & N2 & N3).
  destruct (construct_free _ _ C1 F1) as (R1 & Q1 & W1). destruct (construct_free _ _ C2 F2) as (R2 & Q2 & W2).
  destruct (construct_ok _ _ C1) as (_ & _ & _ & _ & _ & A5 & _). destruct (construct_ok _ _ C2) as (_ & _ & _ & _ & _ & B5 & _).
  assert (P : b_precone b1 = b_precone b2) by (rewrite A5, B5; f_equal; apply SS).
  assert (G : forall k, nth_error (g_r g1) k = nth_error (g_r g2) k -> aget (b_r b1) k = aget (b_r b2) k).
  { intros k Ek. unfold aget. rewrite <- !nth_default_eq. unfold nth_default. rewrite R1, R2, Ek. reflexivity. }
  destruct (le_lt_dec (length (g_r g1)) i) as [H|H].
  - rewrite (proj2 (nth_error_None l1 i)), (proj2 (nth_error_None l2 i)); [reflexivity| |].
    + rewrite (loads_length _ _ _ _ _ _ _ _ L2), R2, <- EL. exact H.
    + rewrite (loads_length _ _ _ _ _ _ _ _ L1), R1. exact H.
  - assert (H2 : (2 <= length (g_r g1))%nat).
    { unfold construct in C1. destruct (Nat.ltb (length (g_r g1)) 2) eqn:E; [discriminate|]. apply Nat.ltb_ge in E. exact E. }
    apply (loads_same npi bq g1 g2 b1 b2 U Om p az); try assumption.
    + rewrite R1. exact H.
    + rewrite R2, <- EL. exact H.
    + rewrite R1, R2. exact P1.
    + rewrite Q1, Q2. exact P2.
    + rewrite W1, W2. exact P3.
    + replace (length (b_r b1)) with (length (g_r g1)) by (rewrite R1; reflexivity). replace (length (b_r b2)) with (length (g_r g1)) by (rewrite R2; exact EL).
      rewrite <- P. unfold curv_cone, curv_x, curv_z.
      destruct (Nat.eqb i 0) eqn:E0.
      { apply Nat.eqb_eq in E0. subst i. cbn [Nat.add] in N1, N2, N3. rewrite (G _ P1), (G _ N1), !Q1, !Q2, P2, N2. reflexivity. }
      apply Nat.eqb_neq in E0. destruct (PM ltac:(lia)) as (M1 & M2 & M3).
      destruct (Nat.eqb i (length (g_r g1) - 1)) eqn:En.
      { apply Nat.eqb_eq in En. replace (length (g_r g1) - 2)%nat with (i - 1)%nat by lia. rewrite <- En, (G _ P1), (G _ M1), !Q1, !Q2, P2, M2. reflexivity. }
      rewrite (G _ P1), (G _ M1), (G _ N1), !Q1, !Q2, P2, M2, N2. reflexivity.
Qed.

Lemma local_straight : forall npi bq g1 g2 b1 b2 U Om p az l1 l2 i j, construct g1 = Ok b1 -> construct g2 = Ok b2 -> same_scalars g1 g2 ->
  ends_free g1 -> ends_free g2 -> g_precurve g1 = None -> g_precurve g2 = None -> increasing (g_r g1) -> increasing (g_r g2) -> - 180 < g_precone g1 <= 180 ->
  section_loads npi bq b1 U Om p az = Ok l1 -> section_loads npi bq b2 U Om p az = Ok l2 ->
  (i < length (g_r g1))%nat -> same_section g1 i g2 j -> same_place g1 i g2 j -> nth_error l1 i = nth_error l2 j.
Proof.
  intros npi bq g1 g2 b1 b2 U Om p az l1 l2 i j C1 C2 SS F1 F2 N1 N2 I1 I2 Hpc L1 L2 Hi HS (P1 & P2 & P3).
  destruct (construct_free _ _ C1 F1) as (R1 & Q1 & W1). destruct (construct_free _ _ C2 F2) as (R2 & Q2 & W2).
  destruct (construct_ok _ _ C1) as (_ & _ & _ & _ & _ & A5 & _). destruct (construct_ok _ _ C2) as (_ & _ & _ & _ & _ & B5 & _).
  assert (P : b_precone b1 = b_precone b2) by (rewrite A5, B5; f_equal; apply SS).
  assert (Hj : (j < length (g_r g2))%nat).
  { apply nth_error_Some. rewrite <- P1. apply nth_error_Some. exact Hi. }
  assert (G : forall g, construct g = Ok b1 \/ construct g = Ok b2 -> (2 <= length (g_r g))%nat).
  { intros g [X|X]; unfold construct in X; (destruct (Nat.ltb (length (g_r g)) 2) eqn:E; [discriminate|]); apply Nat.ltb_ge in E; exact E. }
  pose proof (G g1 (or_introl C1)) as H1. pose proof (G g2 (or_intror C2)) as H2. clear G.
  pose proof PI_RGT_0 as HP. assert (Hr : - PI < radians (g_precone g1) <= PI).
  { unfold radians. split.
    - apply Rmult_lt_reg_r with (180 / PI); [apply Rdiv_lt_0_compat; lra|]. replace (- PI * (180 / PI)) with (- 180) by (field; lra).
      replace (g_precone g1 * (PI / 180) * (180 / PI)) with (g_precone g1) by (field; lra). lra.
    - apply Rmult_le_reg_r with (180 / PI); [apply Rdiv_lt_0_compat; lra|]. replace (PI * (180 / PI)) with 180 by (field; lra).
      replace (g_precone g1 * (PI / 180) * (180 / PI)) with (g_precone g1) by (field; lra). lra. }
  apply (loads_same npi bq g1 g2 b1 b2 U Om p az); try assumption.
  - rewrite R1. exact Hi.
  - rewrite R2. exact Hj.
  - rewrite R1, R2. exact P1.
  - rewrite Q1, Q2. exact P2.
  - rewrite W1, W2. exact P3.
  - rewrite <- P, A5. rewrite !cone_straight; try assumption; try reflexivity.
    all: try (rewrite ?R1, ?R2; lia).
    all: intros k Hk; rewrite ?R1, ?R2 in Hk |- *.
    all: first [apply I1; lia | apply I2; lia | rewrite !Q1, N1; reflexivity | rewrite !Q2, N2; reflexivity].
Qed.
