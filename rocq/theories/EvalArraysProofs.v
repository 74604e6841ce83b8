(** Lemmas about evaluate with three arrays (C108). *)
From Coq Require Import Reals Bool Arith List Lra Lia.
From Verif Require Import Prelim Num Bem Blade BladeSpec StationProofs BladeProofs TwistProofs TwistWitness LengthSpec LengthProofs EnoughProofs EvalArrays.
Import ListNotations.
Open Scope R_scope.

Lemma pyget_ok {X} (l : list X) i : (i < length l)%nat -> exists x, pyget l i = Ok x /\ nth_error l i = Some x.
Proof. intros H. unfold pyget. destruct (nth_error l i) as [x|] eqn:E; [eauto|]. apply nth_error_None in E. lia. Qed.
Lemma pyget_short {X} (l : list X) i : (length l <= i)%nat -> pyget l i = Raise IndexError.
Proof. intros H. unfold pyget. apply nth_error_None in H. rewrite H. reflexivity. Qed.

(** Any loop that returns has read an entry of each array for each wind speed. *)
Lemma loop_lengths npi bq Oms ps : forall Us i b W b' ts W', array_loop npi bq i Us Oms ps b W = Ok (b', ts, W') -> Us <> [] ->
  (i + length Us <= length Oms)%nat /\ (i + length Us <= length ps)%nat.
Proof.
  induction Us as [|U Us IH]; intros i b W b' ts W' H HN; [congruence|]. cbn [array_loop] in H.
  apply bind_ok in H. destruct H as (Om & E1 & H). apply bind_ok in H. destruct H as (p & E2 & H). apply bind_ok in H. destruct H as ([[b1 t] W1] & _ & H).
  apply bind_ok in H. destruct H as ([[b2 ts2] W2] & E3 & _).
  assert (A1 : (i < length Oms)%nat) by (destruct (Nat.lt_ge_cases i (length Oms)); [assumption|rewrite pyget_short in E1 by assumption; discriminate]).
  assert (A2 : (i < length ps)%nat) by (destruct (Nat.lt_ge_cases i (length ps)); [assumption|rewrite pyget_short in E2 by assumption; discriminate]).
  destruct Us as [|U' Us]; [cbn [length]; lia|]. destruct (IH _ _ _ _ _ _ E3 ltac:(discriminate)). cbn [length] in *. lia.
Qed.
Lemma loop_count npi bq Oms ps : forall Us i b W b' ts W', array_loop npi bq i Us Oms ps b W = Ok (b', ts, W') -> length ts = length Us.
Proof.
  induction Us as [|U Us IH]; intros i b W b' ts W' H; cbn [array_loop] in H.
  - apply ok_inj in H. apply pair_equal_spec in H. destruct H as [H _]. apply pair_equal_spec in H. destruct H as [_ <-]. reflexivity.
  - apply bind_ok in H. destruct H as (Om & E1 & H). apply bind_ok in H. destruct H as (p & E2 & H). apply bind_ok in H. destruct H as ([[b1 t] W1] & _ & H).
    apply bind_ok in H. destruct H as ([[b2 ts2] W2] & E3 & H). apply ok_inj in H. apply pair_equal_spec in H. destruct H as [H _]. apply pair_equal_spec in H. destruct H as [_ <-].
    cbn [length]. f_equal. eapply IH. exact E3.
Qed.

Lemma times_length q w p : np_times q w = Ok p -> (length q <= length w)%nat -> (1 <= length q)%nat ->
  length p = length w /\ (length w = length q \/ length q = 1%nat).
Proof.
  unfold np_times. destruct (Nat.eqb (length q) (length w)) eqn:E.
  - apply Nat.eqb_eq in E. intros H _ _. apply ok_inj in H. subst p. rewrite map_length, combine_length, E, Nat.min_id. auto.
  - apply Nat.eqb_neq in E. intros H L1 L2. destruct q as [|x [|y q]]; [cbn in L2; lia| |].
    + apply ok_inj in H. subst p. rewrite map_length. auto.
    + destruct w as [|z [|z' w]]; [discriminate H|cbn [length] in L1; lia|discriminate H].
Qed.

Lemma arrays_need npi bq b Us Oms ps b' ts P w : evaluate_arrays npi bq b Us Oms ps = Ok (b', ts, P, w) ->
  (1 <= length Us)%nat /\ (length Us <= length ps)%nat /\ (length Oms = length Us \/ (length Us = 1%nat /\ (1 <= length Oms)%nat)) /\
  length ts = length Us /\ length P = length Oms.
Proof.
  unfold evaluate_arrays. intros H. apply bind_ok in H. destruct H as ([[b1 ts1] W1] & E1 & H). apply bind_ok in H. destruct H as (qo & E2 & H).
  destruct W1 as [w1|]; [|discriminate H]. apply ok_inj in H. apply pair_equal_spec in H. destruct H as [H <-]. apply pair_equal_spec in H. destruct H as [H <-].
  apply pair_equal_spec in H. destruct H as [<- <-]. pose proof (loop_count _ _ _ _ _ _ _ _ _ _ _ E1) as LT. rewrite map_length.
  destruct Us as [|U Us].
  { cbn [array_loop] in E1. apply ok_inj in E1. apply pair_equal_spec in E1. destruct E1 as [_ E1]. discriminate E1. }
  destruct (loop_lengths _ _ _ _ _ _ _ _ _ _ _ E1 ltac:(discriminate)) as (L1 & L2). cbn [Nat.add] in L1, L2.
  destruct (times_length _ _ _ E2) as (L3 & L4).
  - rewrite map_length, LT. exact L1.
  - rewrite map_length, LT. cbn [length]. lia.
  - rewrite map_length, LT in L4. split; [cbn [length]; lia|]. split; [exact L2|]. split; [|auto]. destruct L4; [auto|right; split; [assumption|cbn [length] in *; lia]].
Qed.

(** Arrays of equal length: the same loop as [condition_loop]. *)
Lemma skip_nth {X} (l : list X) i x : pyget l i = Ok x -> skipn i l = x :: skipn (S i) l.
Proof.
  unfold pyget. revert i. induction l as [|y l IH]; intros [|i] H; cbn [nth_error] in H; try discriminate.
  - apply ok_inj in H. subst. reflexivity.
  - cbn [skipn]. apply IH. exact H.
Qed.
Lemma loop_same npi bq Oms ps : forall Us i b W, (i + length Us = length Oms)%nat -> (i + length Us = length ps)%nat ->
  array_loop npi bq i Us Oms ps b W = condition_loop npi bq (zip3 Us (skipn i Oms) (skipn i ps)) b W.
Proof.
  induction Us as [|U Us IH]; intros i b W H1 H2; [reflexivity|]. cbn [array_loop length] in *.
  destruct (pyget_ok Oms i ltac:(lia)) as (Om & E1 & _). destruct (pyget_ok ps i ltac:(lia)) as (p & E2 & _).
  rewrite E1, E2, (skip_nth _ _ _ E1), (skip_nth _ _ _ E2). cbn [bind]. unfold zip3. cbn [combine condition_loop].
  destruct (azimuth_loop _ _ _ _ _ _ _ _ _) as [[[b1 t] W1]|e]; [|reflexivity]. cbn [bind]. rewrite IH by lia. reflexivity.
Qed.

Lemma conditions_count npi bq : forall conds b W b' ts W', condition_loop npi bq conds b W = Ok (b', ts, W') -> length ts = length conds.
Proof.
  induction conds as [|[[U Om] p] conds IH]; intros b W b' ts W' H; cbn [condition_loop] in H.
  - apply ok_inj in H. apply pair_equal_spec in H. destruct H as [H _]. apply pair_equal_spec in H. destruct H as [_ <-]. reflexivity.
  - apply bind_ok in H. destruct H as ([[b1 t] W1] & _ & H). apply bind_ok in H. destruct H as ([[b2 ts2] W2] & E3 & H). apply ok_inj in H.
    apply pair_equal_spec in H. destruct H as [H _]. apply pair_equal_spec in H. destruct H as [_ <-]. cbn [length]. f_equal. eapply IH. exact E3.
Qed.
Lemma zip3_length Us Oms ps : length Us = length Oms -> length Us = length ps -> length (zip3 Us Oms ps) = length Us.
Proof. intros H1 H2. unfold zip3. rewrite !combine_length. lia. Qed.

Lemma tots_zip b : forall Us Oms ps (ts : list (option totals)), length Us = length Oms -> length Us = length ps -> length ts = length Us ->
  map (option_map y_tot) (map (fun ct : (R * R * R) * option totals => let '((U, Om, _), t) := ct in option_map (finish b U Om) t) (combine (zip3 Us Oms ps) ts)) = ts /\
  map (option_map y_P) (map (fun ct : (R * R * R) * option totals => let '((U, Om, _), t) := ct in option_map (finish b U Om) t) (combine (zip3 Us Oms ps) ts)) =
  map (option_map (fun x => x * PI / 30)) (map (fun x => option_map (fun y => y * snd x) (fst x)) (combine (map (option_map t_Q) ts) Oms)).
Proof.
  induction Us as [|U Us IH]; intros [|Om Oms] [|p ps] [|t ts] H1 H2 H3; try discriminate; [split; reflexivity|].
  cbn [length] in *. destruct (IH Oms ps ts) as (A & B); [lia..|]. unfold zip3 in *. cbn [combine map fst snd]. rewrite A, B. split; f_equal; destruct t; reflexivity.
Qed.

Lemma arrays_same npi bq b Us Oms ps : length Us = length Oms -> length Us = length ps ->
  evaluate_arrays npi bq b Us Oms ps =
  bind (evaluate npi bq b (zip3 Us Oms ps)) (fun x => Ok (fst (fst x), map (option_map y_tot) (snd (fst x)), map (option_map y_P) (snd (fst x)), snd x)).
Proof.
  intros H1 H2. unfold evaluate_arrays, evaluate. rewrite (loop_same npi bq Oms ps Us 0 b None) by lia. cbn [skipn].
  destruct (condition_loop npi bq (zip3 Us Oms ps) b None) as [[[b1 ts] W]|e] eqn:E; [|reflexivity]. cbn [bind].
  pose proof (conditions_count _ _ _ _ _ _ _ _ E) as L. rewrite zip3_length in L by assumption.
  unfold np_times. rewrite map_length, L, H1, Nat.eqb_refl. cbn [bind].
  destruct W as [w|]; [|reflexivity]. cbn [bind fst snd]. destruct (tots_zip b Us Oms ps ts H1 H2 L) as (A & B). rewrite A, B. reflexivity.
Qed.

(** One wind speed. *)
Lemma arrays_one npi bq b U Om Oms p ps : evaluate_arrays npi bq b [U] (Om :: Oms) (p :: ps) =
  bind (evaluate npi bq b [(U, Om, p)]) (fun x =>
    Ok (fst (fst x), map (option_map y_tot) (snd (fst x)),
        map (fun w => match snd (fst x) with [Some y] => Some (t_Q (y_tot y) * w * PI / 30) | _ => None end) (Om :: Oms), snd x)).
Proof.
  unfold evaluate_arrays, evaluate. cbn [array_loop condition_loop pyget nth_error bind].
  destruct (azimuth_loop npi bq (azimuths (b_nSector b)) b U Om p (Some tot0) None) as [[[b1 t] W]|e]; [|reflexivity]. cbn [bind map combine].
  assert (T : np_times [option_map t_Q t] (Om :: Oms) = Ok (map (fun y => option_map (fun v => v * y) (option_map t_Q t)) (Om :: Oms))).
  { unfold np_times. destruct (Nat.eqb _ _) eqn:E; [|reflexivity]. apply Nat.eqb_eq in E. destruct Oms; [reflexivity|discriminate E]. }
  rewrite T. cbn [bind]. destruct W as [w|]; [|reflexivity]. cbn [bind fst snd map]. rewrite map_map.
  destruct t as [t|]; cbn [option_map]; [|reflexivity]. reflexivity.
Qed.

(** A rotor with complete data: exactly the lengths of [arrays_need] are accepted. *)
Lemma ready_arrays npi bq Oms ps : only_value_error bq -> Forall (fun x => x <> 0) Oms -> forall Us i b W, ready b -> (i + length Us <= length Oms)%nat -> (i + length Us <= length ps)%nat ->
  Us <> [] \/ (exists w, W = Some w /\ length w = length (b_r b)) ->
  exists b' ts w, array_loop npi bq i Us Oms ps b W = Ok (b', ts, Some w).
Proof.
  intros Hq HO. induction Us as [|U Us IH]; intros i b W HB H1 H2 HN; cbn [array_loop].
  - destruct HN as [X|(w & -> & L)]; [congruence|]. eauto.
  - cbn [length] in *. destruct (pyget_ok Oms i ltac:(lia)) as (Om & E1 & E1'). destruct (pyget_ok ps i ltac:(lia)) as (p & E2 & _). rewrite E1, E2. cbn [bind].
    assert (NZ : Om <> 0) by (rewrite Forall_forall in HO; apply HO; eapply nth_error_In; exact E1').
    destruct (ready_azimuths npi bq Hq (azimuths (b_nSector b)) b U Om p (Some tot0) W HB NZ) as (b1 & t & w & E & L & HB1 & R1).
    { left. destruct HB as (_ & _ & _ & _ & N). unfold azimuths. destruct (b_nSector b); [lia|discriminate]. }
    rewrite E. cbn [bind]. destruct (IH (S i) b1 (Some w) HB1 ltac:(lia) ltac:(lia)) as (b2 & ts & w2 & E3); [right; exists w; split; [reflexivity|congruence]|].
    rewrite E3. cbn [bind]. eauto.
Qed.
Lemma ready_evaluate npi bq b Us Oms ps : only_value_error bq -> ready b -> Forall (fun x => x <> 0) Oms ->
  (1 <= length Us)%nat -> (length Us <= length ps)%nat -> (length Oms = length Us \/ (length Us = 1%nat /\ (1 <= length Oms)%nat)) ->
  exists r, evaluate_arrays npi bq b Us Oms ps = Ok r.
Proof.
  intros Hq HB HO H1 H2 H3. unfold evaluate_arrays.
  destruct (ready_arrays npi bq Oms ps Hq HO Us 0 b None HB) as (b' & ts & w & E); [lia|lia|left; destruct Us; [cbn in H1; lia|discriminate]|].
  pose proof (loop_count _ _ _ _ _ _ _ _ _ _ _ E) as LT. rewrite E. cbn [bind].
  assert (T : exists qo, np_times (map (option_map t_Q) ts) Oms = Ok qo).
  { unfold np_times. destruct (Nat.eqb _ _) eqn:Q; [eauto|]. apply Nat.eqb_neq in Q. rewrite map_length in Q. destruct H3 as [H3|(H3 & H4)]; [lia|].
    destruct ts as [|t [|t' ts]]; cbn [length] in LT; try lia. cbn [map]. eauto. }
  destruct T as (qo & ->). cbn [bind]. eauto.
Qed.

(** The exceptions of the lengths that are refused. *)
Lemma short_loop npi bq Oms ps : only_value_error bq -> Forall (fun x => x <> 0) Oms -> forall Us i b W, ready b ->
  (length Oms < i + length Us)%nat \/ (length ps < i + length Us)%nat -> (i <= length Oms)%nat -> (i <= length ps)%nat ->
  array_loop npi bq i Us Oms ps b W = Raise IndexError.
Proof.
  intros Hq HO. induction Us as [|U Us IH]; intros i b W HB H L1 L2; cbn [array_loop length] in *; [lia|].
  destruct (Nat.eq_dec i (length Oms)) as [E|N1]; [rewrite pyget_short by lia; reflexivity|].
  destruct (pyget_ok Oms i ltac:(lia)) as (Om & E1 & E1'). rewrite E1. cbn [bind].
  destruct (Nat.eq_dec i (length ps)) as [E|N2]; [rewrite pyget_short by lia; reflexivity|].
  destruct (pyget_ok ps i ltac:(lia)) as (p & E2 & _). rewrite E2. cbn [bind].
  assert (NZ : Om <> 0) by (rewrite Forall_forall in HO; apply HO; eapply nth_error_In; exact E1').
  destruct (ready_azimuths npi bq Hq (azimuths (b_nSector b)) b U Om p (Some tot0) W HB NZ) as (b1 & t & w & E & L & HB1 & R1).
  { left. destruct HB as (_ & _ & _ & _ & N). unfold azimuths. destruct (b_nSector b); [lia|discriminate]. }
  rewrite E. cbn [bind]. rewrite (IH (S i) b1 (Some w) HB1) by lia. reflexivity.
Qed.
Lemma ready_refused npi bq b Us Oms ps : only_value_error bq -> ready b -> Forall (fun x => x <> 0) Oms ->
  ((length Oms < length Us)%nat \/ (length ps < length Us)%nat -> evaluate_arrays npi bq b Us Oms ps = Raise IndexError) /\
  ((2 <= length Us)%nat -> (length Us < length Oms)%nat -> (length Us <= length ps)%nat -> evaluate_arrays npi bq b Us Oms ps = Raise ValueError) /\
  (Us = [] -> (length Oms <= 1)%nat -> evaluate_arrays npi bq b Us Oms ps = Raise NameError).
Proof.
  intros Hq HB HO. refine (conj _ (conj _ _)); unfold evaluate_arrays.
  - intros H. rewrite (short_loop npi bq Oms ps Hq HO Us 0 b None HB) by lia. reflexivity.
  - intros H1 H2 H3. destruct (ready_arrays npi bq Oms ps Hq HO Us 0 b None HB) as (b' & ts & w & E); [lia|lia|left; destruct Us; [cbn in H1; lia|discriminate]|].
    pose proof (loop_count _ _ _ _ _ _ _ _ _ _ _ E) as LT. rewrite E. cbn [bind]. unfold np_times. rewrite map_length, LT.
    replace (Nat.eqb (length Us) (length Oms)) with false by (symmetry; apply Nat.eqb_neq; lia).
    destruct ts as [|t [|t' ts]]; [cbn in LT; lia|cbn in LT; lia|]. destruct Oms as [|o [|o' Oms]]; [cbn in H2; lia|cbn in H2; lia|]. reflexivity.
  - intros -> H. cbn [array_loop bind map]. destruct Oms as [|o [|o' Oms]]; [reflexivity|reflexivity|cbn in H; lia].
Qed.
