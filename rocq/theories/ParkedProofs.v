(** Proofs about the parked rotor (C87, C88). *)
From Coq Require Import Reals Bool Arith List Lra Lia FunctionalExtensionality.
From Verif Require Import Prelim CSystem CSystemSpec Num Bem BemGeomProofs Blade BladeSpec FlProofs StationProofs StationLoads StationExist BladeProofs SectorProofs SimilaritySpec SimilarityProofs SymmetryProofs ParkedSpec.
Import ListNotations.
Open Scope R_scope.

Lemma parked_loads npi rt (sc : sect fl) rho mu c th p Vx Vy clf cdf :
  rep (rt_rho rt) rho -> rep (rt_mu rt) mu -> rep (s_chord sc) c -> rep (s_theta sc) th -> rep (rt_pitch rt) p -> rep (s_Vx sc) Vx -> rep (s_Vy sc) Vy ->
  computes (s_af sc) clf cdf -> mu <> 0 -> Vx <> 0 -> Vy <> 0 ->
  exists l, loads rt (Fin (npi / 2)) false sc = Ok l /\ parked_load npi rho mu c th p Vx Vy clf cdf l.
Proof.
  intros Hrho Hmu Hc Ht Hp Hx Hy Haf Hm Hvx Hvy. unfold loads.
  cbn [ofR neq nlt nabs nmul ndiv nsub nadd ncos nsin nsqrt fl_arith].
  rewrite (rep_eq _ _ _ _ Hx (rep_Fin 0)), (rep_eq _ _ _ _ Hy (rep_Fin 0)).
  replace (reqb Vx 0) with false by (symmetry; apply reqb_false; exact Hvx). replace (reqb Vy 0) with false by (symmetry; apply reqb_false; exact Hvy).
  cbn [negb andb]. unfold relativeWind. cbn [ofR neq nlt nabs nmul ndiv nsub nadd ncos nsin nsqrt fl_arith].
  assert (L : flt (Fin 10) (fabs (Fin 0)) = false).
  { rewrite (rep_lt _ _ _ _ (rep_Fin 10) (rep_abs _ _ (rep_Fin 0))). rewrite Rabs_R0. apply rltb_false. lra. }
  rewrite L.
  set (al := fsub (Fin (npi / 2)) (fadd (s_theta sc) (rt_pitch rt))).
  set (W := fsqrt _). set (Re := fdiv (fmul (fmul (rt_rho rt) W) (s_chord sc)) (rt_mu rt)).
  assert (RA : rep al (npi / 2 - th - p)) by (replace (npi / 2 - th - p) with (npi / 2 - (th + p)) by ring; unfold al; reps).
  assert (RW : rep W (sqrt (Vx ^ 2 + Vy ^ 2))).
  { replace (Vx ^ 2 + Vy ^ 2) with (Vx * (1 - 0) * (Vx * (1 - 0)) + Vy * (1 + 0) * (Vy * (1 + 0))) by ring. apply rep_sqrt; [|nra].
    reps. }
  assert (RR : rep Re (rho * sqrt (Vx ^ 2 + Vy ^ 2) * c / mu)) by (unfold Re; apply rep_div; [reps|assumption|assumption]).
  destruct (Haf _ _ _ _ RA RR) as [H1 H2]. destruct (s_af sc al Re) as [cl cd]. cbn [fst snd] in H1, H2. cbn [bind]. rewrite L. fold al W. fold Re. eexists. split; [reflexivity|].
  unfold parked_load. cbv zeta. cbn [o_a o_ap o_Np o_Tp o_alpha o_cl o_cd o_q o_W o_Re].
  assert (Q : rep (fmul (fmul (Fin (1 / 2)) (rt_rho rt)) (fmul W W)) (rho * sqrt (Vx ^ 2 + Vy ^ 2) ^ 2 / 2)).
  { match goal with |- rep _ ?x => replace x with (1 / 2 * rho * (sqrt (Vx ^ 2 + Vy ^ 2) * sqrt (Vx ^ 2 + Vy ^ 2))) by field end.
    apply rep_mul; [apply rep_mul; [apply rep_Fin|assumption]|apply rep_mul; assumption]. }
  repeat match goal with |- _ /\ _ => split end; try assumption; try apply rep_Fin.
  - unfold rad2deg, degrees. cbn [nmul ofR fl_arith]. apply rep_mul; [assumption|apply rep_Fin].
  - match goal with |- rep _ (?q * c * ?x) => replace (q * c * x) with (x * q * c) by ring end. reps.
  - match goal with |- rep _ (?q * c * ?x) => replace (q * c * x) with (x * q * c) by ring end. reps.
Qed.

Lemma parked_station npi bq rt (sc : sect fl) rho mu c th p Vx Vy clf cdf :
  rep (rt_rho rt) rho -> rep (rt_mu rt) mu -> rep (s_chord sc) c -> rep (s_theta sc) th -> rep (rt_pitch rt) p -> rep (s_Vx sc) Vx -> rep (s_Vy sc) Vy ->
  computes (s_af sc) clf cdf -> mu <> 0 -> Vx <> 0 -> Vy <> 0 ->
  exists l, solve_station npi bq rt false sc = Ok l /\ parked_load npi rho mu c th p Vx Vy clf cdf l.
Proof.
  intros Hrho Hmu Hc Ht Hp Hx Hy Haf Hm Hvx Hvy. destruct (parked_loads npi rt sc rho mu c th p Vx Vy clf cdf) as (l & E & P); try assumption.
  exists l. split; [|exact P]. unfold solve_station. cbn [bind ofR fl_arith]. rewrite E. cbn [bind]. unfold nan_guard.
  rewrite (rep_isnan _ _ (proj1 (proj2 (proj2 (proj2 (proj2 (proj2 (proj2 (proj2 (proj2 P)))))))))). reflexivity.
Qed.

Lemma not_rotating : negb (reqb 0 0) = false.
Proof. replace (reqb 0 0) with true by (symmetry; apply reqb_true; reflexivity). reflexivity. Qed.

Lemma station_of npi bq b U Om p az b' ls i l : distributedAeroLoads npi bq b U Om p az = Ok (b', ls) -> nth_error ls i = Some l ->
  (i < length (b_r b))%nat /\ exists t, station_i npi bq b (radians p) Om (wind b U Om (radians az)) i = Ok (t, l) /\
    b_theta b' = (if b_inverse b then b_theta b' else b_theta b) /\ (b_inverse b = true -> nth_error (b_theta b') i = Some t).
Proof.
  intros E Hl. unfold distributedAeroLoads in E. destruct (negb (shapes_ok b)); [discriminate E|]. apply bind_ok in E. destruct E as (out & E1 & E2).
  apply ok_inj in E2. apply pair_equal_spec in E2. destruct E2 as [<- <-].
  pose proof (mapM_ok _ _ _ E1) as F. rewrite nth_error_map in Hl. destruct (nth_error out i) as [[t l0]|] eqn:Eo; [|discriminate Hl]. cbn in Hl. injection Hl as ->.
  assert (Hi : (i < length (seq 0 (length (b_r b))))%nat).
  { rewrite (Forall2_len _ _ _ F). apply nth_error_Some. congruence. }
  rewrite seq_length in Hi. split; [exact Hi|]. exists t.
  assert (S : nth_error (seq 0 (length (b_r b))) i = Some i) by (rewrite (nth_error_nth' _ 0%nat) by (rewrite seq_length; exact Hi); rewrite seq_nth by exact Hi; reflexivity).
  split; [|split].
  - clear -F Eo S. revert i out F Eo S. generalize (seq 0 (length (b_r b))). intros L i out F Eo S. revert i S Eo.
    assert (G : forall j k o, nth_error L j = Some k -> nth_error out j = Some o -> station_i npi bq b (radians p) Om (wind b U Om (radians az)) k = Ok o).
    { induction F as [|x y L out Hxy F IH]; intros [|j] k o Hk Ho; cbn in Hk, Ho; try discriminate; [|eauto]. congruence. }
    intros i S Eo. exact (G i i _ S Eo).
  - unfold set_call. cbn [b_theta]. destruct (b_inverse b); reflexivity.
  - intros ->. unfold set_call. cbn [b_theta]. rewrite nth_error_map, Eo. reflexivity.
Qed.

Lemma pyget_inv {X} (l : list X) i x : pyget l i = Ok x -> nth_error l i = Some x.
Proof. unfold pyget. destruct (nth_error l i); [intros E; apply ok_inj in E; congruence|discriminate]. Qed.

Lemma parked_section npi bq b U p az ls i l c th af clf cdf : b_inverse b = false -> section_loads npi bq b U 0 p az = Ok ls -> nth_error ls i = Some l ->
  nth_error (b_chord b) i = Some c -> nth_error (b_theta b) i = Some (Fin th) -> nth_error (b_af b) i = Some af -> computes af clf cdf -> b_mu b <> 0 ->
  let V := wind b U 0 (radians az) in fst V i <> 0 -> snd V i <> 0 ->
  parked_load npi (b_rho b) (b_mu b) c th (radians p) (fst V i) (snd V i) clf cdf l.
Proof.
  intros Hinv E Hl Ec Et Ea Haf Hmu V Hx Hy. unfold section_loads in E. apply bind_ok in E. destruct E as ((b' & ls') & E & E'). apply ok_inj in E'. cbn in E'. subst ls'.
  destruct (station_of _ _ _ _ _ _ _ _ _ _ _ E Hl) as (Hi & t & S & _). unfold station_i in S. rewrite not_rotating, Hinv in S.
  apply bind_ok in S. destruct S as (r & _ & S). apply bind_ok in S. destruct S as (c' & Ec' & S). apply bind_ok in S. destruct S as (af' & Ea' & S).
  apply bind_ok in S. destruct S as (th' & Et' & S). apply bind_ok in S. destruct S as (l' & El & S). apply ok_inj in S. apply pair_equal_spec in S. destruct S as [_ ->].
  apply pyget_inv in Ec', Ea', Et'. assert (c' = c) by congruence. assert (af' = af) by congruence. assert (th' = Fin th) by congruence. subst.
  edestruct (parked_station npi bq (rotor_of b (radians p)) (mkSect (Fin r) (Fin c) (Fin th) af (Fin (fst V i)) (Fin (snd V i))) (b_rho b) (b_mu b) c th (radians p) (fst V i) (snd V i) clf cdf)
    as (l2 & E2 & P); try apply rep_Fin; try assumption.
  fold V in El. rewrite E2 in El. apply ok_inj in El. subst l2. exact P.
Qed.

Lemma parked_section_inverse npi bq b U p az b' ls i l c al af clf cdf : b_inverse b = true -> distributedAeroLoads npi bq b U 0 p az = Ok (b', ls) -> nth_error ls i = Some l ->
  nth_error (b_chord b) i = Some c -> nth_error (b_alpha b) i = Some al -> nth_error (b_af b) i = Some af -> computes af clf cdf -> b_mu b <> 0 ->
  let V := wind b U 0 (radians az) in fst V i <> 0 -> snd V i <> 0 ->
  let th := npi / 2 - al - radians p in
  (exists t, nth_error (b_theta b') i = Some t /\ rep t th) /\ parked_load npi (b_rho b) (b_mu b) c th (radians p) (fst V i) (snd V i) clf cdf l.
Proof.
  intros Hinv E Hl Ec Et Ea Haf Hmu V Hx Hy th.
  destruct (station_of _ _ _ _ _ _ _ _ _ _ _ E Hl) as (Hi & t & S & _ & T). specialize (T Hinv). unfold station_i in S. rewrite not_rotating, Hinv in S.
  apply bind_ok in S. destruct S as (r & _ & S). apply bind_ok in S. destruct S as (c' & Ec' & S). apply bind_ok in S. destruct S as (af' & Ea' & S).
  apply bind_ok in S. destruct S as (cl & _ & S). apply bind_ok in S. destruct S as (cd & _ & S). apply bind_ok in S. destruct S as (al' & Et' & S).
  apply pyget_inv in Ec', Ea', Et'. assert (c' = c) by congruence. assert (af' = af) by congruence. assert (al' = al) by congruence. subst c' af' al'.
  unfold solve_station_inverse in S. cbn [bind] in S. set (tt := nsub _ _) in S.
  assert (RT : rep tt th) by (unfold tt, th; cbn [nsub ofR fl_arith]; change (rt_pitch (rotor_of b (radians p))) with (Fin (radians p)); reps).
  apply bind_ok in S. destruct S as (l0 & El & S). apply bind_ok in S. destruct S as (l1 & Eg & S). apply ok_inj in S. apply pair_equal_spec in S. destruct S as [<- ->].
  edestruct (parked_loads npi (rotor_of b (radians p)) (mkSect (Fin r) (Fin c) tt af (Fin (fst V i)) (Fin (snd V i))) (b_rho b) (b_mu b) c th (radians p) (fst V i) (snd V i) clf cdf)
    as (l2 & E2 & P); try apply rep_Fin; try assumption.
  fold V in El. change (ofR (npi / 2)) with (Fin (npi / 2)) in El. rewrite E2 in El. apply ok_inj in El. subst l2.
  unfold nan_guard in Eg. rewrite (rep_isnan _ _ (proj1 (proj2 (proj2 (proj2 (proj2 (proj2 (proj2 (proj2 (proj2 P)))))))))) in Eg. apply ok_inj in Eg. subst.
  split; [exists tt; auto|exact P].
Qed.

(** No root is sought. *)
Lemma parked_any_solver npi bq bq' b U p az : distributedAeroLoads npi bq b U 0 p az = distributedAeroLoads npi bq' b U 0 p az.
Proof.
  unfold distributedAeroLoads. destruct (negb (shapes_ok b)); [reflexivity|]. f_equal. apply mapM_ext. intros i _. unfold station_i, solve_station, solve_station_inverse.
  rewrite not_rotating. reflexivity.
Qed.

(** ** Facing the wind *)
Lemma facing_wind b U az i : b_tilt b = 0 -> b_yaw b = 0 -> snd (wind b U 0 az) i = 0.
Proof.
  intros Ht Hy. unfold wind, windComponents. rewrite Ht, Hy. destruct (defineCurvature _ _ _ _ _) as [[[[x y] z] cone] s]. cbv zeta. cbn [snd]. rewrite sin_0. field.
Qed.

Lemma facing_section npi bq b U p az b' ls : b_tilt b = 0 -> b_yaw b = 0 -> distributedAeroLoads npi bq b U 0 p az = Ok (b', ls) -> Forall (fun l => l = zero_load) ls.
Proof.
  intros Ht Hy E. apply Forall_forall. intros l IN. apply In_nth_error in IN. destruct IN as [i Hl].
  destruct (station_of _ _ _ _ _ _ _ _ _ _ _ E Hl) as (Hi & t & S & _). unfold station_i in S. rewrite facing_wind in S by assumption.
  apply bind_ok in S. destruct S as (r & _ & S). apply bind_ok in S. destruct S as (c' & _ & S). apply bind_ok in S. destruct S as (af' & _ & S).
  assert (Z : iszero (Fin 0) = true) by (cbn; apply reqb_true; reflexivity).
  destruct (b_inverse b).
  - apply bind_ok in S. destruct S as (cl & _ & S). apply bind_ok in S. destruct S as (cd & _ & S). apply bind_ok in S. destruct S as (al & _ & S).
    eapply zero_wind_station_inverse; [right; exact Z|exact S].
  - apply bind_ok in S. destruct S as (th & _ & S). apply bind_ok in S. destruct S as (l' & El & S). apply ok_inj in S. apply pair_equal_spec in S. destruct S as [_ <-].
    eapply zero_wind_station; [|exact El]. right. exact Z.
Qed.

Lemma zeros_aget ls vs (f : sload fl -> fl) : f zero_load = Fin 0 -> Forall (fun l => l = zero_load) ls -> Forall2 (fun l v => fval (f l) = Some v) ls vs -> aget vs = fun _ => 0.
Proof.
  intros Hf Hz H. apply functional_extensionality. induction H as [|l v ls vs E H IH]; intros [|i]; unfold aget in *; cbn [nth]; try reflexivity.
  - inversion Hz; subst. rewrite Hf in E. cbn in E. congruence.
  - inversion Hz; subst. auto.
Qed.

Lemma trapz_zero m f s : (forall i, f i = 0) -> trapz m f s = 0.
Proof. intros H. induction m as [|m IH]; cbn [trapz]; [reflexivity|]. rewrite IH, !H. ring. Qed.
Lemma pad_zero n i : pad n 0 (fun _ => 0) 0 i = 0.
Proof. unfold pad. destruct (Nat.eqb i 0), (Nat.eqb i (n + 1)); reflexivity. Qed.
Lemma no_loads n r pc ps precone Rhub Rtip ct st : thrustTorque n (fun _ => 0) (fun _ => 0) r pc ps precone Rhub Rtip ct st = (0, 0, 0, 0, 0).
Proof.
  unfold thrustTorque. destruct (defineCurvature _ _ _ _ _) as [[[[x y] z] cone] s]. cbv zeta.
  rewrite !trapz_zero by (intros; rewrite pad_zero; ring). reflexivity.
Qed.

Lemma total_zero n f : (forall k, (k < n)%nat -> f k = 0) -> total n f = 0.
Proof. intros H. induction n as [|n IH]; cbn [total]; [reflexivity|]. rewrite IH by (intros; apply H; lia). rewrite H by lia. ring. Qed.

Lemma facing_rotor npi bq b conds b' outs w i U p y : b_inverse b = false -> (1 <= b_nSector b)%nat -> b_tilt b = 0 -> b_yaw b = 0 ->
  evaluate npi bq b conds = Ok (b', outs, w) -> nth_error conds i = Some (U, 0, p) -> nth_error outs i = Some (Some y) -> y_tot y = tot0.
Proof.
  intros Hinv Hn Ht Hy E Hc Ho. destruct (azimuthal_mean npi bq b conds b' outs w i U 0 p y Hinv Hn E Hc Ho) as (ls & Np & Tp & H & M). cbv zeta in M.
  assert (Z : forall k, (k < b_nSector b)%nat -> blade_force b (Np k) (Tp k) = (0, 0, 0) /\ blade_moment b (Np k) (Tp k) = (0, 0, 0)).
  { intros k Hk. destruct (H k Hk) as (E1 & N & T). unfold section_loads in E1. apply bind_ok in E1. destruct E1 as ((b1 & ls1) & E1 & E2). apply ok_inj in E2. cbn in E2. subst ls1.
    pose proof (facing_section _ _ _ _ _ _ _ _ Ht Hy E1) as F. unfold blade_force, blade_moment.
    rewrite (zeros_aget _ _ o_Np eq_refl F N), (zeros_aget _ _ o_Tp eq_refl F T), no_loads. auto. }
  assert (F0 : forall k, (k < b_nSector b)%nat -> in_hub_frame (INR k * 360 / INR (b_nSector b)) (blade_force b (Np k) (Tp k)) = (0, 0, 0)).
  { intros k Hk. destruct (Z k Hk) as [-> _]. rewrite hub_frame. cbn [c1 c2 c3 fst snd]. rewrite !Rmult_0_l, Rminus_0_r, Rplus_0_l. reflexivity. }
  assert (M0 : forall k, (k < b_nSector b)%nat -> in_hub_frame (INR k * 360 / INR (b_nSector b)) (blade_moment b (Np k) (Tp k)) = (0, 0, 0)).
  { intros k Hk. destruct (Z k Hk) as [_ ->]. rewrite hub_frame. cbn [c1 c2 c3 fst snd]. rewrite !Rmult_0_l, Rminus_0_r, Rplus_0_l. reflexivity. }
  destruct M as (T1 & T2 & T3 & T4 & T5 & T6 & T7).
  rewrite total_zero in T1 by (intros k Hk; rewrite F0 by exact Hk; reflexivity). rewrite total_zero in T2 by (intros k Hk; rewrite F0 by exact Hk; reflexivity).
  rewrite total_zero in T3 by (intros k Hk; rewrite F0 by exact Hk; reflexivity). rewrite total_zero in T4 by (intros k Hk; rewrite M0 by exact Hk; reflexivity).
  rewrite total_zero in T5 by (intros k Hk; rewrite M0 by exact Hk; reflexivity). rewrite total_zero in T6 by (intros k Hk; rewrite M0 by exact Hk; reflexivity).
  rewrite total_zero in T7 by (intros k Hk; rewrite (proj2 (Z k Hk)); reflexivity).
  destruct (y_tot y) as [t1 t2 t3 t4 t5 t6 t7]. cbn [t_T t_Y t_Z t_Q t_My t_Mz t_Mb] in *. unfold tot0. rewrite T1, T2, T3, T4, T5, T6, T7. unfold Rdiv. rewrite Rmult_0_l, Rmult_0_r. reflexivity.
Qed.

Lemma facing_constructed npi bq g b : g_tilt g = 0 -> g_yaw g = 0 -> construct g = Ok b ->
  (forall U p az ls, section_loads npi bq b U 0 p az = Ok ls -> Forall (fun l => l = zero_load) ls) /\
  (forall conds b' outs w i U p y, evaluate npi bq b conds = Ok (b', outs, w) -> nth_error conds i = Some (U, 0, p) -> nth_error outs i = Some (Some y) -> y_tot y = tot0).
Proof.
  intros Ht Hy E. destruct (construct_attributes g b E) as (_ & _ & _ & Hn & Hinv & _).
  assert (A : b_tilt b = 0 /\ b_yaw b = 0).
  { unfold construct in E. destruct (Nat.ltb (length (g_r g)) 2); [discriminate|]. cbv zeta in E. destruct (curve_error _ _ _ _ _); [discriminate|]. apply ok_inj in E. subst b.
    cbn [b_tilt b_yaw]. rewrite Ht, Hy. unfold radians. split; field. }
  destruct A as [A1 A2]. split.
  - intros U p az ls E1. unfold section_loads in E1. apply bind_ok in E1. destruct E1 as ((b1 & ls1) & E1 & E2). apply ok_inj in E2. cbn in E2. subst ls1. exact (facing_section _ _ _ _ _ _ _ _ A1 A2 E1).
  - intros conds b' outs w i U p y E1 E2 E3. exact (facing_rotor _ _ _ _ _ _ _ _ _ _ _ Hinv Hn A1 A2 E1 E2 E3).
Qed.
