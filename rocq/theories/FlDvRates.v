(** The hypotheses under which the derivatives are right (C64, C65) exclude the zero divisors; a parked rotor. *)
From Coquelicot Require Import Coquelicot.
From Coq Require Import Reals Bool Arith List Lra Lia.
From Verif Require Import Prelim Num Bem BemGeomSpec IndSpec DiffSpec BemDiff DeriveLib Blade BladeDiff BladeDiffSpec BladeDiffFl FlProofs FlDvSpec
  StationProofs StationDvProofs BladeDvProofs EvalDvProofs FlDvProofs BladeDvExample.
Import ListNotations.
Open Scope R_scope.

Lemma station_divisors npi bq fx (D : R -> design) t i l dN dT dR : (i < f_n fx)%nat -> station_ok npi bq fx D t i ->
  station_dv npi bq fx (D t) i = Ok (l, dN, dT, dR) ->
  station_result npi bq fx (D t) i = Ok l /\ ~ windless fx (D t) i /\ dR 0%nat <> 0.
Proof.
  set (rt0 := rotor_d fx (D t)). set (af := f_af fx i). set (afd := f_afd fx i).
  intros Hi [H|H] Hst.
  - destruct H as (HO & Hit & Hf & phi & _ & Hloc & Hsimple & Hreg & Hsm & Hwb).
    pose proof (locally_singleton _ _ Hloc) as [Hs0 He0].
    pose proof Hst as H. unfold station_dv in H. cbv zeta in H. replace (rt_iterRe (rotor_d fx (D t))) with 1%nat in H by (symmetry; exact Hit).
    replace (reqb (x_Omega (D t)) 0) with false in H by (symmetry; apply reqb_false; exact HO). cbn [negb] in H.
    rewrite Hs0 in H. cbn [bind] in H. fold afd in H.
    pose proof (loads_dv_l _ _ _ _ _ _ _ _ _ H) as Hll.
    assert (RES : station_result npi bq fx (D t) i = Ok l) by (rewrite (result_rot _ _ _ _ _ _ Hit HO Hs0); exact Hll).
    set (x := xvec fx (D t) i (phi t)) in *.
    split; [exact RES|]. split. { unfold regular_station in Hreg. destruct Hreg as (_ & _ & V1 & V2 & _). intros [W|W]; [apply V1|apply V2]; exact W. }
    destruct (loads_gradient_rot rt0 af afd x l dN dT dR Hit Hf Hreg Hsm H (Hwb l RES)) as (GN & GT & GR).
    intros E. apply Hsimple. rewrite <- E. change (errf (rotor_d fx (D t)) (sect_d fx (D t) i) 0) with (errf (rotor_at rt0 x) (sect_at af x) 0).
    change (phi t) with (x 0%nat). rewrite (Derive_err fx i Hi rt0 af afd x Hreg).
    pose proof (res_gradient rt0 af afd x Hreg) as GR'.
    set (X := fun k (s : R) => match k with O => s | S j => x (S j) end).
    assert (A : forall k, (k < 9)%nat -> X k (x 0%nat) = x k) by (intros [|k] _; reflexivity).
    assert (B : curves_derive 9 X (x 0%nat) (eye 0)).
    { intros [|k] _; [apply (is_derive_id (x 0%nat))|apply d_const]. }
    pose proof (GR X (x 0%nat) (eye 0) A B) as E1. pose proof (GR' X (x 0%nat) (eye 0) A B) as E2.
    pose proof (is_derive_unique _ _ _ E1) as U1. pose proof (is_derive_unique _ _ _ E2) as U2. rewrite U1 in U2.
    rewrite !(inner_single 9 _ (eye 0) 0) in U2 by (try lia; intros k _ Hk; rewrite (eye_diff 0 k) by auto; ring).
    rewrite eye_same in U2. lra.
  - destruct H as (HO & Hmu & H3 & H4 & Hsm). pose proof Hst as Hst'.
    unfold station_dv in Hst'. rewrite (HO t) in Hst'. replace (reqb 0 0) with true in Hst' by (symmetry; apply reqb_true; reflexivity). cbn [negb bind] in Hst'.
    split; [rewrite (result_park _ _ _ _ _ (HO t)); exact (loads_dv_l _ _ _ _ _ _ _ _ _ Hst')|]. clear Hst'. split; [intros [W|W]; contradiction|].
    unfold station_dv in Hst. rewrite (HO t) in Hst.
    replace (reqb 0 0) with true in Hst by (symmetry; apply reqb_true; reflexivity). cbn [negb bind] in Hst.
    unfold loads_dv, loads_dv_with in Hst. unfold sect_d at 1 2 in Hst. cbn [s_Vx s_Vy] in Hst. apply reqb_false in H3, H4. rewrite H3, H4 in Hst. cbn [andb negb] in Hst.
    destruct (loads _ _ _ _) as [l'|]; cbn [bind] in Hst; [|discriminate]. destruct (f_afd fx i _ _) as [[[d1 d2] d3] d4].
    destruct (orb _ _); [discriminate|]. apply ok_inj in Hst. apply pair_equal_spec in Hst. destruct Hst as [_ <-]. unfold eye. cbn. lra.
Qed.

Lemma rates_divisors npi bq fx (D : R -> design) t i : (i < f_n fx)%nat -> station_ok npi bq fx D t i -> (exists o, station_dv npi bq fx (D t) i = Ok o) ->
  (forall l, station_result npi bq fx (D t) i = Ok l -> o_ct l <> 0) -> divisors_ok npi bq fx (D t) i.
Proof.
  intros Hi S [[[[l dN] dT] dR] E] C. destruct (station_divisors _ _ _ _ _ _ _ _ _ _ Hi S E) as (ER & W & R0). split; [exact W|].
  exists l, dN, dT, dR. auto.
Qed.

Lemma one_station npi bq fx D o i : distributed_dv npi bq fx D = Ok o -> (i < f_n fx)%nat -> exists p, station_dv npi bq fx D i = Ok p.
Proof.
  unfold distributed_dv, loads_jac. destruct (mapM _ _) as [out|] eqn:M; cbn [bind]; [|discriminate]. intros _ Hi. eexists.
  pose proof (mapM_nth _ _ _ 0%nat (zero_load, fun _ => 0, fun _ => 0, fun _ => 0) M i) as H. rewrite seq_length, seq_nth in H by assumption. apply H. exact Hi.
Qed.

Theorem distributed_rates npi bq fx (D : R -> design) t Np Tp dN dT : distributed_dv npi bq fx (D t) = Ok (Np, Tp, dN, dT) ->
  exists gN gT, @g_distributed fl _ npi bq fx (D t) = Ok (Np, Tp, gN, gT) /\
  forall i, (i < f_n fx)%nat -> station_ok npi bq fx D t i -> (forall l, station_result npi bq fx (D t) i = Ok l -> o_ct l <> 0) ->
    Forall2 rep (load_entries (f_n fx) gN i) (real_load_entries (f_n fx) dN i) /\ Forall2 rep (load_entries (f_n fx) gT i) (real_load_entries (f_n fx) dT i).
Proof.
  intros E. destruct (distributed_same _ _ _ _ _ _ _ _ E) as (gN & gT & G & H). exists gN, gT. split; [exact G|].
  intros i Hi S C. apply H; [exact Hi|]. apply rates_divisors; auto. exact (one_station _ _ _ _ _ _ E Hi).
Qed.

Lemma sector_jac npi bq fx D : forall azs t t', sectors_dv npi bq fx D azs t = Ok t' -> forall az, In az azs -> exists j, loads_jac npi bq fx (set_azimuth D (degrees az)) = Ok j.
Proof.
  induction azs as [|a azs IH]; intros t t' E az Ha; [destruct Ha|]. cbn [sectors_dv] in E. destruct (loads_jac npi bq fx (set_azimuth D (degrees a))) as [j|] eqn:J; cbn [bind] in E; [|discriminate].
  destruct Ha as [<- |Ha]; [exists j; exact J|exact (IH _ _ E az Ha)].
Qed.
Lemma sector_divisors npi bq fx (D : R -> design) t v E : sectors_ok npi bq fx D t v -> evaluate_dv npi bq fx (D t) = Ok E ->
  forall az i, In az (azimuths (f_nSector fx)) -> (i < f_n fx)%nat -> divisors_ok npi bq fx (set_azimuth (D t) (degrees az)) i.
Proof.
  intros (_ & _ & S) Ev az i Ha Hi. destruct (S az Ha) as [_ SS]. destruct (SS i Hi) as [S1 S2].
  unfold evaluate_dv in Ev. destruct (sectors_dv npi bq fx (D t) (azimuths (f_nSector fx)) totd0) as [td|] eqn:ES; cbn [bind] in Ev; [|discriminate].
  destruct (sector_jac _ _ _ _ _ _ _ ES az Ha) as [j J].
  apply (rates_divisors npi bq fx (fun s => sector_design (D s) az) t i Hi S1); [|exact S2].
  apply (one_station npi bq fx (set_azimuth (D t) (degrees az)) (j_Np j, j_Tp j, load_dict (j_NX j) (j_Npc j), load_dict (j_TX j) (j_Tpc j)) i); [|exact Hi].
  unfold distributed_dv. rewrite J. reflexivity.
Qed.

(** ** One azimuth: Mz is exactly 0 *)
Lemma one_sector npi bq fx D ev : @g_evaluate fl _ npi bq fx D = Ok ev -> f_nSector fx = 1%nat -> t_Mz (gv_tot ev) = 0 /\ no_scalars (gv_dCMz ev).
Proof.
  intros E N. assert (Z : t_Mz (gv_tot ev) = 0).
  { unfold g_evaluate in E. rewrite N in E. cbn [azimuths map seq g_sectors] in E. destruct (g_loads_jac _ _ _ _) as [g|]; cbn [bind] in E; [|discriminate].
    apply ok_inj in E. subst ev. unfold g_finish, g_tot_add. destruct (thrustTorque _ _ _ _ _ _ _ _ _ _ _) as [[[[a b] c] d] e]. cbn [gv_tot gt_tot t_Mz g_tot0 tot0].
    rewrite N. cbn [INR]. rewrite Rmult_0_l, sin_0. unfold Rdiv. cbn [t_Mz tot0]. ring. }
  split; [exact Z|]. destruct (evaluate_zero _ _ _ _ _ E) as (_ & _ & _ & _ & _ & H & _). exact (H Z).
Qed.

(** ** A parked rotor that faces the wind *)
Lemma facing_Vy fx D i : x_Omega D = 0 -> x_tilt D = 0 -> x_yaw D = 0 -> snd (wind_d fx D) i = 0.
Proof.
  intros H1 H2 H3. unfold wind_d, windComponents. rewrite H1, H2, H3. cbv zeta. rewrite deg0, sin_0, cos_0.
  destruct (defineCurvature _ _ _ _ _) as [[[[? ?] ?] ?] ?]. cbn [fst snd]. unfold Rdiv. ring.
Qed.
Lemma facing_station npi bq fx D i : x_Omega D = 0 -> x_tilt D = 0 -> x_yaw D = 0 -> exists o, station_dv npi bq fx D i = Ok o.
Proof.
  intros H1 H2 H3. unfold station_dv. cbv zeta. rewrite H1. replace (reqb 0 0) with true by (symmetry; apply reqb_true; reflexivity). cbn [negb bind].
  unfold loads_dv, loads_dv_with, sect_d. cbn [s_Vx s_Vy]. rewrite (facing_Vy fx D i H1 H2 H3). replace (reqb 0 0) with true by (symmetry; apply reqb_true; reflexivity).
  rewrite andb_false_r. eexists. reflexivity.
Qed.
Lemma facing_jac npi bq fx D : x_Omega D = 0 -> x_tilt D = 0 -> x_yaw D = 0 -> exists j, loads_jac npi bq fx D = Ok j.
Proof.
  intros H1 H2 H3. unfold loads_jac. destruct (mapM_ok (station_dv npi bq fx D) (seq 0 (f_n fx))) as [ys ->]; [intros i _; apply facing_station; assumption|].
  eexists. reflexivity.
Qed.
Lemma facing_distributed npi bq fx D : x_Omega D = 0 -> x_tilt D = 0 -> x_yaw D = 0 -> f_rho fx <> 0 ->
  exists Np Tp dN dT, @g_distributed fl _ npi bq fx D = Ok (Np, Tp, dN, dT) /\
  forall i, (i < f_n fx)%nat -> Np i = 0 /\ Tp i = 0 /\ Forall (eq NaN) (load_entries (f_n fx) dN i) /\ Forall (eq NaN) (load_entries (f_n fx) dT i).
Proof.
  intros H1 H2 H3 Rh. destruct (facing_jac npi bq fx D H1 H2 H3) as [j J]. destruct (jac_fl _ _ _ _ _ J) as (g & G & _).
  assert (E : @g_distributed fl _ npi bq fx D = Ok (gj_Np g, gj_Tp g, g_load_dict (gj_NX g) (gj_Npc g), g_load_dict (gj_TX g) (gj_Tpc g))) by (unfold g_distributed; rewrite G; reflexivity).
  eexists _, _, _, _. split; [exact E|]. intros i Hi. destruct (zero_loads _ _ _ _ _ _ _ _ _ E Rh Hi) as (_ & B & C).
  destruct C as [C1 C2]; [right; apply facing_Vy; assumption|]. destruct (B C1). auto.
Qed.
