(** Proofs about arrays of the wrong length (C94). *)
From Coq Require Import Reals Bool Arith List Lra Lia.
From Verif Require Import Prelim Num Bem Interp InterpSpec BemDiff Blade BladeSpec FlProofs StationProofs StationLoads BladeProofs BladeDiff BladeDvProofs ConstructProofs
  Component ComponentSpec SectorWitness TwistProofs TwistWitness.
From Verif Require Import LengthSpec.
Import ListNotations.
Open Scope R_scope.

(** ** The constructor *)
Lemma empty_precurve g : (2 <= length (g_r g))%nat -> g_precurve g = Some [] -> construct g = Raise IndexError.
Proof.
  intros HL H. unfold construct. destruct (Nat.ltb_spec (length (g_r g)) 2); [lia|]. cbv zeta. rewrite H. reflexivity.
Qed.

Lemma bad_tip r tip l : l <> [] -> length l <> length r -> tip = last l 0 -> tip_error r tip l = Some ValueError.
Proof.
  intros H1 H2 ->. destruct l as [|x l]; [congruence|]. unfold tip_error. apply Nat.eqb_neq in H2. rewrite H2.
  rewrite (proj2 (reqb_true _ _) eq_refl). reflexivity.
Qed.
Lemma good_tip r tip l : l <> [] -> tip <> last l 0 \/ length l = length r -> tip_error r tip l = None.
Proof.
  intros H1 H2. destruct l as [|x l]; [congruence|]. unfold tip_error. destruct H2 as [H2|H2].
  - rewrite (proj2 (reqb_false _ _) H2), andb_false_r. reflexivity.
  - rewrite H2, Nat.eqb_refl. reflexivity.
Qed.

Lemma long_precurve g l : (2 <= length (g_r g))%nat -> g_precurve g = Some l -> l <> [] -> length l <> length (g_r g) ->
  g_precurveTip g = last l 0 -> construct g = Raise ValueError.
Proof.
  intros HL H1 H2 H3 H4. unfold construct. destruct (Nat.ltb_spec (length (g_r g)) 2); [lia|]. cbv zeta. rewrite H1.
  unfold curve_error. rewrite (bad_tip _ _ _ H2 H3 H4). reflexivity.
Qed.

Lemma harmless_none r c tip : (2 <= length r)%nat -> harmless r c tip ->
  tip_error r (match c with Some _ => tip | None => 0 end) (match c with Some l => l | None => map (fun _ => 0) r end) = None.
Proof.
  intros HL H. destruct c as [l|]; cbn [harmless] in H; [apply good_tip; tauto|]. apply good_tip.
  - destruct r; [cbn in HL; lia|discriminate].
  - right. apply map_length.
Qed.

Lemma bad_presweep g l e : (2 <= length (g_r g))%nat -> harmless (g_r g) (g_precurve g) (g_precurveTip g) -> g_presweep g = Some l ->
  (l = [] /\ e = IndexError) \/ (l <> [] /\ length l <> length (g_r g) /\ g_presweepTip g = last l 0 /\ e = ValueError) ->
  construct g = Raise e.
Proof.
  intros HL HP H1 H2. unfold construct. destruct (Nat.ltb_spec (length (g_r g)) 2); [lia|]. cbv zeta.
  unfold curve_error. rewrite (harmless_none _ _ _ HL HP), H1. destruct H2 as [[-> ->]|(A & B & C & ->)]; [reflexivity|].
  rewrite (bad_tip _ _ _ A B C). reflexivity.
Qed.

Lemma accepted g : (2 <= length (g_r g))%nat -> harmless (g_r g) (g_precurve g) (g_precurveTip g) ->
  harmless (g_r g) (g_presweep g) (g_presweepTip g) -> exists b, construct g = Ok b.
Proof.
  intros HL HP HS. unfold construct. destruct (Nat.ltb_spec (length (g_r g)) 2); [lia|]. cbv zeta.
  unfold curve_error. rewrite (harmless_none _ _ _ HL HP), (harmless_none _ _ _ HL HS). eauto.
Qed.

(** ** The calls *)
Lemma curve_lengths g b : construct g = Ok b ->
  length (b_r b) = length (g_r g) /\ (forall l, g_precurve g = Some l -> length (b_precurve b) = length l) /\
  (forall l, g_presweep g = Some l -> length (b_presweep b) = length l).
Proof.
  intros E. split; [exact (proj2 (proj2 (construct_keeps _ _ E)))|]. apply construct_stored in E.
  rewrite (st_pc _ _ E), (st_ps _ _ E). cbv zeta. split; intros l ->; destruct (reqb _ _); rewrite ?set_last_length; reflexivity.
Qed.

Section Calls.
Variable npi : R.
Variable bq : rootfinder fl.

Lemma refused b : length (b_precurve b) <> length (b_r b) \/ length (b_presweep b) <> length (b_r b) ->
  (forall U Om p az, distributedAeroLoads npi bq b U Om p az = Raise OtherException) /\
  (forall c conds, (1 <= b_nSector b)%nat -> evaluate npi bq b (c :: conds) = Raise OtherException).
Proof.
  intros H. assert (S : shapes_ok b = false).
  { unfold shapes_ok. apply andb_false_iff. destruct H as [H|H]; [left|right]; apply Nat.eqb_neq; exact H. }
  assert (D : forall U Om p az, distributedAeroLoads npi bq b U Om p az = Raise OtherException).
  { intros. unfold distributedAeroLoads. rewrite S. reflexivity. }
  split; [exact D|]. intros [[U Om] p] conds HN. unfold evaluate. cbn [condition_loop].
  unfold azimuths. destruct (b_nSector b); [lia|]. cbn [seq map azimuth_loop]. rewrite D. reflexivity.
Qed.

Lemma wrong_curve g b : construct g = Ok b ->
  (exists l, g_precurve g = Some l /\ length l <> length (g_r g)) \/ (exists l, g_presweep g = Some l /\ length l <> length (g_r g)) ->
  (forall U Om p az, distributedAeroLoads npi bq b U Om p az = Raise OtherException) /\
  (forall c conds, evaluate npi bq b (c :: conds) = Raise OtherException).
Proof.
  intros E H. destruct (curve_lengths _ _ E) as (L & L1 & L2).
  assert (S : length (b_precurve b) <> length (b_r b) \/ length (b_presweep b) <> length (b_r b)).
  { destruct H as [(l & A & B)|(l & A & B)]; [left; rewrite (L1 _ A)|right; rewrite (L2 _ A)]; congruence. }
  destruct (refused b S) as [D1 D2]. split; [exact D1|]. intros c conds. apply D2.
  apply construct_stored in E. rewrite (st_n _ _ E). destruct (andb _ _); lia.
Qed.

(** Too few chords, twists or airfoils. *)
Lemma pyget_short {X} (l : list X) i : (length l <= i)%nat -> pyget l i = Raise IndexError.
Proof. intros H. unfold pyget. rewrite (proj2 (nth_error_None l i) H). reflexivity. Qed.
Lemma pyget_long {X} (l : list X) i : (i < length l)%nat -> exists x, pyget l i = Ok x.
Proof. intros H. exact (pyget_ok l i _ eq_refl H). Qed.

Lemma mapM_raise {X Y} (f : X -> res Y) l1 x l2 e : (forall y, In y l1 -> exists z, f y = Ok z) -> f x = Raise e -> mapM f (l1 ++ x :: l2) = Raise e.
Proof.
  intros H1 H2. induction l1 as [|y l1 IH]; cbn [app mapM]; [rewrite H2; reflexivity|].
  destruct (H1 y (or_introl eq_refl)) as (z & ->). cbn [bind]. rewrite IH by (intros; apply H1; right; assumption). reflexivity.
Qed.

Lemma station_short b p Om V i : b_inverse b = false -> (i < length (b_r b))%nat -> (supply b <= i)%nat ->
  station_i npi bq b p Om V i = Raise IndexError.
Proof.
  intros Hi Hr Hs. unfold station_i. cbv zeta. destruct (pyget_long _ _ Hr) as (r & ->). cbn [bind].
  destruct (le_lt_dec (length (b_chord b)) i) as [A|A]; [rewrite (pyget_short _ _ A); reflexivity|]. destruct (pyget_long _ _ A) as (c & ->). cbn [bind].
  destruct (le_lt_dec (length (b_af b)) i) as [B|B]; [rewrite (pyget_short _ _ B); reflexivity|]. destruct (pyget_long _ _ B) as (a & ->). cbn [bind].
  rewrite Hi. rewrite (pyget_short (b_theta b) i) by (unfold supply in Hs; lia). reflexivity.
Qed.

Lemma station_supplied (Hbq : only_value_error bq) b p Om V i : b_inverse b = false -> (1 <= b_iterRe b)%nat -> Om <> 0 -> (i < length (b_r b))%nat -> (i < supply b)%nat ->
  exists o, station_i npi bq b p Om V i = Ok o.
Proof.
  intros Hi HR HO Hr Hs. unfold supply in Hs. unfold station_i.
  replace (reqb Om 0) with false by (symmetry; apply reqb_false; exact HO). cbn [negb]. cbv zeta. rewrite Hi.
  destruct (pyget_long (b_r b) i Hr) as (r & ->). destruct (pyget_long (b_chord b) i ltac:(lia)) as (c & ->).
  destruct (pyget_long (b_af b) i ltac:(lia)) as (af & ->). destruct (pyget_long (b_theta b) i ltac:(lia)) as (th & ->). cbn [bind].
  destruct (b_iterRe b) as [|m] eqn:E; [lia|].
  unfold solve_station. cbn [rotor_of rt_iterRe]. rewrite E.
  match goal with |- context [solve npi bq ?f] => destruct (tame_solve npi bq Hbq f) as (phi & ->) end. cbn [bind]. cbv zeta.
  match goal with |- context [loads ?rt phi true ?s] => destruct (loads_ok rt phi true s m E) as (l0 & ->) end.
  cbn [bind]. destruct (nan_guard_ok l0) as (l & ->). cbn [bind]. eauto.
Qed.

Lemma too_few b U Om p az : shapes_ok b = true -> b_inverse b = false -> (supply b < length (b_r b))%nat ->
  (forall b' ls, distributedAeroLoads npi bq b U Om p az <> Ok (b', ls)) /\
  (only_value_error bq -> (1 <= b_iterRe b)%nat -> Om <> 0 -> distributedAeroLoads npi bq b U Om p az = Raise IndexError).
Proof.
  intros HS Hi Hs. split.
  - intros b' ls E. unfold distributedAeroLoads in E. rewrite HS in E. cbn [negb] in E. cbv zeta in E. apply bind_ok in E. destruct E as (ys & EM & _).
    pose proof (mapM_length _ _ _ EM) as L. rewrite seq_length in L.
    pose proof (mapM_nth _ _ _ 0%nat (Fin 0, zero_load) EM (supply b) ltac:(rewrite seq_length; lia)) as S.
    rewrite seq_nth in S by lia. cbn [Nat.add] in S. rewrite station_short in S by (assumption || lia). discriminate S.
  - intros Hbq HR HO. unfold distributedAeroLoads. rewrite HS. cbn [negb]. cbv zeta.
    replace (seq 0 (length (b_r b))) with (seq 0 (supply b) ++ supply b :: seq (S (supply b)) (length (b_r b) - S (supply b))).
    + rewrite (mapM_raise _ _ _ _ IndexError); [reflexivity| |].
      * intros i Hin. apply in_seq in Hin. apply station_supplied; try assumption; lia.
      * apply station_short; try assumption; lia.
    + replace (length (b_r b)) with (supply b + S (length (b_r b) - S (supply b)))%nat at 2 by lia. rewrite seq_app. reflexivity.
Qed.

Lemma too_few_given g b : construct g = Ok b -> right_length (g_r g) (g_precurve g) -> right_length (g_r g) (g_presweep g) ->
  (complete_stations g < length (g_r g))%nat ->
  (forall U Om p az b' ls, distributedAeroLoads npi bq b U Om p az <> Ok (b', ls)) /\
  (only_value_error bq -> (1 <= g_iterRe g)%nat -> forall U Om p, Om <> 0 ->
     (forall az, distributedAeroLoads npi bq b U Om p az = Raise IndexError) /\
     (forall conds, evaluate npi bq b ((U, Om, p) :: conds) = Raise IndexError)).
Proof.
  intros E P1 P2 Hs. destruct (curve_lengths _ _ E) as (L & L1 & L2). pose proof (construct_stored _ _ E) as ST.
  assert (K : b_inverse b = false /\ supply b = complete_stations g /\ b_iterRe b = g_iterRe g).
  { split; [exact (st_inv _ _ ST)|]. unfold construct in E. cbv zeta in E. destruct (Nat.ltb _ 2); [discriminate|]. destruct (curve_error _ _ _ _ _); [discriminate|].
    apply ok_inj in E. rewrite <- E. unfold supply, complete_stations. cbn [b_chord b_theta b_af b_iterRe]. rewrite map_length. auto. }
  destruct K as (Hi & HS & HR).
  assert (S : shapes_ok b = true).
  { unfold shapes_ok. apply andb_true_iff. rewrite !Nat.eqb_eq. split.
    - destruct (g_precurve g) as [l|] eqn:G; [rewrite (L1 _ eq_refl), L; exact P1|]. rewrite (st_pc _ _ ST), G. cbv zeta.
      destruct (reqb _ _); rewrite ?set_last_length, map_length; congruence.
    - destruct (g_presweep g) as [l|] eqn:G; [rewrite (L2 _ eq_refl), L; exact P2|]. rewrite (st_ps _ _ ST), G. cbv zeta.
      destruct (reqb _ _); rewrite ?set_last_length, map_length; congruence. }
  assert (T : forall U Om p az, _) by (intros U Om p az; exact (too_few b U Om p az S Hi ltac:(rewrite HS, L; exact Hs))).
  split; [intros U Om p az; exact (proj1 (T U Om p az))|]. intros H1 H2 U Om p HO.
  assert (D : forall az, distributedAeroLoads npi bq b U Om p az = Raise IndexError).
  { intros az. apply (T U Om p az); [exact H1|rewrite HR; exact H2|exact HO]. }
  split; [exact D|]. intros conds. unfold evaluate. cbn [condition_loop].
  assert (N : (1 <= b_nSector b)%nat) by (rewrite (st_n _ _ ST); destruct (andb _ _); lia).
  unfold azimuths. destruct (b_nSector b); [lia|]. cbn [seq map azimuth_loop]. rewrite D. reflexivity.
Qed.
End Calls.
