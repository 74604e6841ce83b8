(** Rotors with complete data: every call returns (C105). *)
From Coq Require Import Reals Bool Arith List Lra Lia.
From Verif Require Import Prelim Num Bem Blade BladeSpec FlProofs StationProofs BladeProofs SectorProofs ConstructProofs TwistProofs TwistWitness LengthSpec LengthProofs.
Import ListNotations.
Open Scope R_scope.

Lemma mapM_all {X Y} (f : X -> res Y) l : (forall x, In x l -> exists y, f x = Ok y) -> exists ys, mapM f l = Ok ys.
Proof.
  induction l as [|x l IH]; intros H; [exists []; reflexivity|]. cbn [mapM].
  destruct (H x (or_introl eq_refl)) as (y & ->). destruct IH as (ys & ->); [intros; apply H; right; assumption|]. cbn [bind]. eauto.
Qed.

Section Enough.
Variable npi : R.
Variable bq : rootfinder fl.
Hypothesis Hbq : only_value_error bq.

Definition ready (b : blade) : Prop :=
  shapes_ok b = true /\ b_inverse b = false /\ (1 <= b_iterRe b)%nat /\ (length (b_r b) <= supply b)%nat /\ (1 <= b_nSector b)%nat.

Lemma ready_construct g b : construct g = Ok b -> right_length (g_r g) (g_precurve g) -> right_length (g_r g) (g_presweep g) ->
  (length (g_r g) <= complete_stations g)%nat -> (1 <= g_iterRe g)%nat -> ready b /\ length (b_r b) = length (g_r g).
Proof.
  intros E P1 P2 Hs HI. destruct (curve_lengths _ _ E) as (L & L1 & L2). pose proof (construct_stored _ _ E) as ST.
  assert (K : b_inverse b = false /\ supply b = complete_stations g /\ b_iterRe b = g_iterRe g).
  { split; [exact (st_inv _ _ ST)|]. unfold construct in E. cbv zeta in E. destruct (Nat.ltb _ 2); [discriminate|]. destruct (curve_error _ _ _ _ _); [discriminate|].
    apply ok_inj in E. rewrite <- E. unfold supply, complete_stations. cbn [b_chord b_theta b_af b_iterRe]. rewrite map_length. auto. }
  destruct K as (Hi & HS & HR). split; [|exact L].
  split; [|split; [exact Hi|split; [lia|split; [lia|]]]].
  - unfold shapes_ok. apply andb_true_iff. rewrite !Nat.eqb_eq. split.
    + destruct (g_precurve g) as [l|] eqn:G; [rewrite (L1 _ eq_refl), L; exact P1|]. rewrite (st_pc _ _ ST), G. cbv zeta.
      destruct (reqb _ _); rewrite ?set_last_length, map_length; congruence.
    + destruct (g_presweep g) as [l|] eqn:G; [rewrite (L2 _ eq_refl), L; exact P2|]. rewrite (st_ps _ _ ST), G. cbv zeta.
      destruct (reqb _ _); rewrite ?set_last_length, map_length; congruence.
  - rewrite (st_n _ _ ST). destruct (andb _ _); lia.
Qed.

Lemma ready_dal b U Om p az : ready b -> Om <> 0 ->
  exists b' ls, distributedAeroLoads npi bq b U Om p az = Ok (b', ls) /\ length ls = length (b_r b) /\ ready b' /\ b_r b' = b_r b.
Proof.
  intros (S0 & HI & HR & HS & HN) HO. unfold distributedAeroLoads. rewrite S0. cbn [negb]. cbv zeta.
  destruct (mapM_all (station_i npi bq b (radians p) Om (wind b U Om (radians az))) (seq 0 (length (b_r b)))) as (ys & E).
  { intros i Hi. apply in_seq in Hi. apply station_supplied; try assumption; lia. }
  pose proof (mapM_length _ _ _ E) as L. rewrite seq_length in L. rewrite E. cbn [bind]. rewrite HI. do 2 eexists. split; [reflexivity|].
  split; [rewrite map_length; exact L|]. split; [|reflexivity].
  split; [exact S0|]. split; [exact HI|]. split; [exact HR|]. split; [exact HS|exact HN].
Qed.

Lemma ready_azimuths azs : forall b U Om p acc W, ready b -> Om <> 0 -> azs <> [] \/ (exists w, W = Some w /\ length w = length (b_r b)) ->
  exists b' t w, azimuth_loop npi bq azs b U Om p acc W = Ok (b', t, Some w) /\ length w = length (b_r b) /\ ready b' /\ b_r b' = b_r b.
Proof.
  induction azs as [|az azs IH]; intros b U Om p acc W HB HO HN; cbn [azimuth_loop].
  - destruct HN as [X|(w & -> & L)]; [congruence|]. exists b, acc, w. auto.
  - destruct (ready_dal b U Om p (degrees az) HB HO) as (b1 & ls & -> & L & HB1 & R1). cbn [bind].
    match goal with |- context [azimuth_loop npi bq azs b1 U Om p ?acc' ?W'] =>
      destruct (IH b1 U Om p acc' W' HB1 HO) as (b' & t & w & E & Lw & HB' & R') end.
    { right. exists (map o_W ls). split; [reflexivity|]. rewrite map_length. congruence. }
    exists b', t, w. split; [exact E|]. split; [congruence|]. split; [exact HB'|congruence].
Qed.

Lemma ready_conditions conds : forall b W, ready b -> Forall (fun c : R * R * R => snd (fst c) <> 0) conds ->
  conds <> [] \/ (exists w, W = Some w /\ length w = length (b_r b)) ->
  exists b' ts w, condition_loop npi bq conds b W = Ok (b', ts, Some w) /\ length ts = length conds /\ length w = length (b_r b).
Proof.
  induction conds as [|[[U Om] p] conds IH]; intros b W HB HF HN; cbn [condition_loop].
  - destruct HN as [X|(w & -> & L)]; [congruence|]. exists b, [], w. auto.
  - inversion HF as [|? ? H1 H2]; subst. cbn [fst snd] in H1.
    destruct (ready_azimuths (azimuths (b_nSector b)) b U Om p (Some tot0) W HB H1) as (b1 & t & w & -> & L & HB1 & R1).
    { left. destruct HB as (_ & _ & _ & _ & N). unfold azimuths. destruct (b_nSector b); [lia|discriminate]. }
    cbn [bind]. destruct (IH b1 (Some w) HB1 H2) as (b2 & ts & w2 & -> & L1 & L2); [right; exists w; split; [reflexivity|congruence]|]. cbn [bind].
    exists b2, (t :: ts), w2. split; [reflexivity|]. split; [cbn [length]; congruence|congruence].
Qed.

Lemma complete_returns g b : construct g = Ok b -> right_length (g_r g) (g_precurve g) -> right_length (g_r g) (g_presweep g) ->
  (length (g_r g) <= complete_stations g)%nat -> (1 <= g_iterRe g)%nat ->
  (forall U Om p az, Om <> 0 -> exists b' ls, distributedAeroLoads npi bq b U Om p az = Ok (b', ls) /\ length ls = length (g_r g)) /\
  (forall conds, conds <> [] -> Forall (fun c : R * R * R => snd (fst c) <> 0) conds ->
     exists b' outs W, evaluate npi bq b conds = Ok (b', outs, W) /\ length outs = length conds /\ length W = length (g_r g)).
Proof.
  intros E P1 P2 Hs HI. destruct (ready_construct g b E P1 P2 Hs HI) as (HB & L). split.
  - intros U Om p az HO. destruct (ready_dal b U Om p az HB HO) as (b' & ls & E1 & L1 & _). exists b', ls. split; [exact E1|congruence].
  - intros conds HN HF. destruct (ready_conditions conds b None HB HF (or_introl HN)) as (b' & ts & w & E1 & L1 & L2).
    unfold evaluate. rewrite E1. cbn [bind]. do 3 eexists. split; [reflexivity|]. split; [|congruence].
    rewrite map_length, combine_length, L1. apply Nat.min_id.
Qed.
End Enough.

Lemma no_condition npi bq b : evaluate npi bq b [] = Raise NameError.
Proof. reflexivity. Qed.
