(** Proofs about the derivatives with IEEE special values (C97, C98). *)
From Coq Require Import Reals Bool Arith List Lra Lia.
From Verif Require Import Prelim Num Bem BemDiff Blade BladeDiff BladeDiffFl FlProofs FlDvSpec StationProofs IndDvProofs BladeDvProofs.
Import ListNotations.
Open Scope R_scope.

Ltac rp := repeat (first [apply rep_Fin | assumption | apply rep_sub | apply rep_add | apply rep_mul | apply rep_div]); auto.

(** ** NaN spreads *)
Lemma nan_add_l x : fadd NaN x = NaN. Proof. destruct x; reflexivity. Qed.
Lemma nan_add_r x : fadd x NaN = NaN. Proof. destruct x; reflexivity. Qed.
Lemma nan_sub_l x : fsub NaN x = NaN. Proof. apply nan_add_l. Qed.
Lemma nan_sub_r x : fsub x NaN = NaN. Proof. apply nan_add_r. Qed.
Lemma nan_mul_l x : fmul NaN x = NaN. Proof. destruct x; reflexivity. Qed.
Lemma nan_mul_r x : fmul x NaN = NaN. Proof. destruct x; reflexivity. Qed.
Lemma nan_div_l x : fdiv NaN x = NaN. Proof. destruct x; reflexivity. Qed.
#[global] Hint Rewrite nan_add_l nan_add_r nan_sub_l nan_sub_r nan_mul_l nan_mul_r nan_div_l : nan.

Lemma zero_over_zero : fdiv (Fin 0) (Fin 0) = NaN.
Proof. cbn. replace (reqb 0 0) with true by (symmetry; apply reqb_true; reflexivity). reflexivity. Qed.
(** Not finite: what x / 0 gives. *)
Definition wild (x : fl) : Prop := x = PInf \/ x = NInf \/ x = NaN.
Lemma over_zero x : wild (fdiv x (Fin 0)).
Proof.
  assert (Z : reqb 0 0 = true) by (apply reqb_true; reflexivity). unfold wild.
  destruct x; unfold fdiv; cbn [iszero isneg]; rewrite ?Z; destruct (rltb 0 0); try destruct (rltb x 0); try destruct (reqb x 0); cbn; auto.
Qed.
Lemma wild_mul x c : wild x -> wild (fmul x (Fin c)).
Proof. unfold wild. intros [-> |[-> | ->]]; cbn; destruct (reqb c 0), (rltb c 0); cbn; auto. Qed.
Lemma wild_add_l x y : wild x -> wild (fadd x y).
Proof. unfold wild. intros [-> |[-> | ->]]; destruct y; cbn; auto. Qed.
Lemma wild_sub_l x y : wild x -> wild (fsub x y). Proof. apply wild_add_l. Qed.
Lemma zero_wild z x : rep z 0 -> wild x -> fmul z x = NaN.
Proof.
  assert (Z : reqb 0 0 = true) by (apply reqb_true; reflexivity).
  intros H W. apply rep_inv in H. destruct H as [-> |[-> _]]; unfold wild in W; destruct W as [-> |[-> | ->]]; cbn; rewrite ?Z; reflexivity.
Qed.

(** ** One station *)
Lemma slope_rep N c dc W dW ch dch : c <> 0 -> W <> 0 -> ch <> 0 -> rep (g_slope N c dc W dW ch dch) (load_slope N c dc W dW ch dch).
Proof. intros. unfold g_slope, load_slope. cbn [nadd nmul ndiv ofR fl_arith]. rp. Qed.
Lemma slope_nan N dc W dW ch dch : N = 0 -> @g_slope fl _ N 0 dc W dW ch dch = NaN.
Proof.
  intros ->. unfold g_slope. cbn [nadd nmul ndiv ofR fl_arith]. apply zero_wild; [apply rep_Fin|].
  apply wild_add_l, wild_add_l, wild_mul, over_zero.
Qed.

Lemma loads_fl rt phi rot sc afd l dN dT dR : loads_dv rt phi rot sc afd = Ok (l, dN, dT, dR) ->
  exists gN gT, loads_dv_with (@g_slope fl _) (Fin 0) rt phi rot sc afd = Ok (l, gN, gT, dR) /\
  (s_Vx sc <> 0 -> s_Vy sc <> 0 -> (forall k, rep (gN k) (dN k)) /\ (o_ct l <> 0 -> forall k, rep (gT k) (dT k)) /\
                                   (o_ct l = 0 -> o_Tp l = 0 -> forall k, gT k = NaN)) /\
  (s_Vx sc = 0 \/ s_Vy sc = 0 -> l = zero_load /\ (forall k, gN k = Fin 0) /\ (forall k, gT k = Fin 0) /\ (forall k, dR k = 0)).
Proof.
  unfold loads_dv, loads_dv_with. destruct (andb _ _) eqn:B.
  - apply andb_true_iff in B. destruct B as [B1 B2]. apply negb_true_iff, reqb_false in B1, B2.
    destruct (loads rt phi rot sc) as [l'|]; cbn [bind]; [|discriminate].
    destruct (if rot then _ else _) as [[a b] c]. destruct (afd _ _) as [[[d1 d2] d3] d4].
    destruct (orb _ _) eqn:O; [discriminate|]. apply orb_false_iff in O. destruct O as [O O3]. apply orb_false_iff in O. destruct O as [O1 O2].
    apply reqb_false in O1, O2, O3. intros E. apply ok_inj in E. apply pair_equal_spec in E. destruct E as [E <-].
    apply pair_equal_spec in E. destruct E as [E <-]. apply pair_equal_spec in E. destruct E as [<- <-].
    eexists _, _. split; [reflexivity|]. split.
    + intros _ _. split; [intros k; apply slope_rep; assumption|]. split; [intros T k; apply slope_rep; assumption|].
      intros T0 T1 k. rewrite T0. apply slope_nan. exact T1.
    + intros [Z|Z]; contradiction.
  - intros E. apply ok_inj in E. apply pair_equal_spec in E. destruct E as [E <-].
    apply pair_equal_spec in E. destruct E as [E <-]. apply pair_equal_spec in E. destruct E as [<- <-].
    eexists _, _. split; [reflexivity|]. split; [|auto]. intros V1 V2. exfalso.
    apply reqb_false in V1, V2. rewrite V1, V2 in B. discriminate.
Qed.
(** ... and nothing else makes a difference: the exceptions are the same. *)
Lemma loads_raise rt phi rot sc afd e : loads_dv rt phi rot sc afd = Raise e -> loads_dv_with (@g_slope fl _) (Fin 0) rt phi rot sc afd = Raise e.
Proof.
  unfold loads_dv, loads_dv_with. destruct (andb _ _); [|discriminate].
  destruct (loads rt phi rot sc) as [l'|]; cbn [bind]; [|intros E; injection E as <-; reflexivity].
  destruct (if rot then _ else _) as [[a b] c]. destruct (afd _ _) as [[[d1 d2] d3] d4].
  destruct (orb _ _); [intros E; injection E as <-; reflexivity|discriminate].
Qed.

(** Normal and tangential load vanish with their coefficients. *)
Lemma loads_ct rt phi rot sc (l : sload R) : loads rt phi rot sc = Ok l -> o_ct l = 0 -> o_Tp l = 0.
Proof.
  unfold loads. destruct (andb _ _); [|intros E; apply ok_inj in E; subst l; reflexivity]. cbv zeta.
  match goal with |- bind ?x _ = _ -> _ => destruct x as [[[[a ap] cl] cd]|] end; cbn [bind]; [|discriminate].
  destruct (relativeWind _ _ _ _ _ _ _ _ _ _) as [[al W] Re]. intros E. apply ok_inj in E. subst l. cbn [o_ct o_Tp].
  intros ->. cbn [nmul R_arith]. ring.
Qed.

Lemma station_fl npi bq fx D i l dN dT dR : station_dv npi bq fx D i = Ok (l, dN, dT, dR) ->
  exists gN gT, @g_station fl _ npi bq fx D i = Ok (l, gN, gT, dR) /\
  (~ windless fx D i -> (forall k, rep (gN k) (dN k)) /\ (o_ct l <> 0 -> forall k, rep (gT k) (dT k)) /\ (o_ct l = 0 -> forall k, gT k = NaN)) /\
  (windless fx D i -> l = zero_load /\ (forall k, gN k = Fin 0) /\ (forall k, gT k = Fin 0) /\ (forall k, dR k = 0)).
Proof.
  unfold station_dv, g_station. cbv zeta. match goal with |- bind ?x _ = _ -> _ => destruct x as [phi|] end; cbn [bind]; [|discriminate].
  intros E. pose proof (loads_dv_l _ _ _ _ _ _ _ _ _ E) as El. destruct (loads_fl _ _ _ _ _ _ _ _ _ E) as (gN & gT & G & H1 & H2).
  exists gN, gT. split; [exact G|]. unfold windless. cbn [sect_d s_Vx s_Vy] in *. split; [|exact H2].
  intros W. destruct (H1 ltac:(tauto) ltac:(tauto)) as (A & B & C). split; [exact A|]. split; [exact B|]. intros Z. apply C; [exact Z|].
  exact (loads_ct _ _ _ _ _ El Z).
Qed.
Lemma station_raise npi bq fx D i e : station_dv npi bq fx D i = Raise e -> @g_station fl _ npi bq fx D i = Raise e.
Proof.
  unfold station_dv, g_station. cbv zeta. match goal with |- bind ?x _ = _ -> _ => destruct x as [phi|] end; cbn [bind]; [|intros E; injection E as <-; reflexivity].
  apply loads_raise.
Qed.

(** ** Total derivatives *)
Lemma total_rep (gN : nat -> fl) (dN dR : nat -> R) j : (forall k, rep (gN k) (dN k)) -> dR 0%nat <> 0 ->
  rep (g_total gN (fun k => Fin (dR k)) j) (total dN dR j).
Proof. intros H1 H2. unfold g_total, total. cbn [nadd nsub nmul ndiv fl_arith]. rp. Qed.
Lemma total_nan0 (gN : nat -> fl) (dR : nat -> R) j : gN 0%nat = Fin 0 -> dR 0%nat = 0 -> g_total gN (fun k => Fin (dR k)) j = NaN.
Proof.
  intros H1 H2. unfold g_total. cbn [nsub nmul ndiv fl_arith]. rewrite H1, H2, zero_over_zero, nan_mul_l, nan_sub_r. reflexivity.
Qed.
Lemma total_nan (gN gR : nat -> fl) j : (forall k, gN k = NaN) -> g_total gN gR j = NaN.
Proof. intros H. unfold g_total. cbn [nsub nmul ndiv fl_arith]. rewrite !H, nan_sub_l. reflexivity. Qed.

(** ** The whole blade *)
Lemma mapM_station npi bq fx D : forall is out, mapM (station_dv npi bq fx D) is = Ok out ->
  exists gout, mapM (@g_station fl _ npi bq fx D) is = Ok gout /\ length gout = length is /\ length out = length is /\
  forall m i, nth_error is m = Some i -> exists l dN dT dR gN gT, nth_error out m = Some (l, dN, dT, dR) /\ nth_error gout m = Some (l, gN, gT, dR) /\
    station_dv npi bq fx D i = Ok (l, dN, dT, dR) /\
    (~ windless fx D i -> (forall k, rep (gN k) (dN k)) /\ (o_ct l <> 0 -> forall k, rep (gT k) (dT k)) /\ (o_ct l = 0 -> forall k, gT k = NaN)) /\
    (windless fx D i -> l = zero_load /\ (forall k, gN k = Fin 0) /\ (forall k, gT k = Fin 0) /\ (forall k, dR k = 0)).
Proof.
  induction is as [|i is IH]; intros out E; cbn [mapM] in *.
  - apply ok_inj in E. subst out. exists []. repeat split. intros [|m] i Hm; discriminate.
  - destruct (station_dv npi bq fx D i) as [[[[l dN] dT] dR]|] eqn:S; cbn [bind] in E; [|discriminate].
    destruct (mapM _ is) as [out'|] eqn:M; cbn [bind] in E; [|discriminate]. apply ok_inj in E. subst out.
    destruct (station_fl _ _ _ _ _ _ _ _ _ S) as (gN & gT & G & H1 & H2). destruct (IH _ eq_refl) as (gout & G' & L1 & L2 & H).
    rewrite G. cbn [bind]. rewrite G'. cbn [bind]. eexists. split; [reflexivity|]. cbn [length]. split; [congruence|]. split; [congruence|].
    intros [|m] i' Hm; cbn in Hm.
    + injection Hm as <-. exists l, dN, dT, dR, gN, gT. cbn. auto.
    + apply H. exact Hm.
Qed.
Lemma mapM_raise npi bq fx D : forall is e, mapM (station_dv npi bq fx D) is = Raise e -> mapM (@g_station fl _ npi bq fx D) is = Raise e.
Proof.
  induction is as [|i is IH]; intros e E; cbn [mapM] in *; [discriminate|].
  destruct (station_dv npi bq fx D i) as [[[[l dN] dT] dR]|e'] eqn:S; cbn [bind] in E.
  - destruct (station_fl _ _ _ _ _ _ _ _ _ S) as (gN & gT & -> & _). cbn [bind]. destruct (mapM _ is) as [out'|e'] eqn:M; cbn [bind] in E; [discriminate|].
    rewrite (IH _ eq_refl). cbn [bind]. congruence.
  - rewrite (station_raise _ _ _ _ _ _ S). cbn [bind]. congruence.
Qed.

Definition rows_rep (G : nat -> nat -> fl) (X : nat -> nat -> R) (i : nat) : Prop := forall k, rep (G k i) (X k i).
Definition rows_nan (G : nat -> nat -> fl) (i : nat) : Prop := forall k, G k i = NaN.

Lemma dX_rep (GN : nat -> nat -> fl) (DN : nat -> dirs) wx wy i : (forall j, rep (GN i j) (DN i j)) -> rows_rep (g_dN_dX GN wx wy) (dN_dX DN wx wy) i.
Proof.
  intros H k. unfold g_dN_dX, dN_dX, g_stackX, stackX. cbn [nmul fl_arith ofR].
  assert (Hw : forall m, rep (g_dN_dw GN wx wy m i) (dN_dw DN wx wy m i)).
  { intros m. unfold g_dN_dw, dN_dw. cbn [nadd nmul fl_arith ofR]. rp. }
  assert (Hz : forall m, rep (g_dN_dz GN wx wy m i) (dN_dz DN wx wy m i)).
  { intros m. unfold g_dN_dz, dN_dz. cbn [nadd nmul fl_arith ofR]. apply rep_add; [apply H|]. destruct (Nat.eqb m 0); [apply Hw|apply rep_Fin]. }
  apply rep_mul; [|apply rep_Fin]. destruct (Nat.ltb k 5); [apply Hz|]. destruct (Nat.ltb k 14); [apply Hw|apply Hz].
Qed.
Lemma dX_nan (GN : nat -> nat -> fl) wx wy i : (forall j, GN i j = NaN) -> rows_nan (g_dN_dX GN wx wy) i.
Proof.
  intros H k. unfold g_dN_dX, g_stackX, g_dN_dz, g_dN_dw. cbn [nadd nmul fl_arith ofR].
  destruct (Nat.ltb k 5); [|destruct (Nat.ltb k 14)]; rewrite ?H; autorewrite with nan; reflexivity.
Qed.
Lemma dpc_rep (GN : nat -> nat -> fl) (DN : nat -> dirs) wx wy i : (forall j, rep (GN i j) (DN i j)) -> rows_rep (g_dN_dprecurve GN wx wy) (dN_dprecurve DN wx wy) i.
Proof. intros H k. unfold g_dN_dprecurve, dN_dprecurve. cbn [nadd nmul fl_arith ofR]. rp. Qed.
Lemma dpc_nan (GN : nat -> nat -> fl) wx wy i : (forall j, GN i j = NaN) -> rows_nan (g_dN_dprecurve GN wx wy) i.
Proof. intros H k. unfold g_dN_dprecurve. cbn [nadd nmul fl_arith ofR]. rewrite !H. autorewrite with nan. reflexivity. Qed.

(** The result of a call at station i. *)
Definition jac_rep (g : g_jac fl) (j : load_jac) (i : nat) : Prop :=
  rows_rep (gj_NX g) (j_NX j) i /\ rows_rep (gj_Npc g) (j_Npc j) i.
Definition jac_rep_T (g : g_jac fl) (j : load_jac) (i : nat) : Prop :=
  rows_rep (gj_TX g) (j_TX j) i /\ rows_rep (gj_Tpc g) (j_Tpc j) i.
Definition jac_nan (g : g_jac fl) (i : nat) : Prop := rows_nan (gj_NX g) i /\ rows_nan (gj_Npc g) i.
Definition jac_nan_T (g : g_jac fl) (i : nat) : Prop := rows_nan (gj_TX g) i /\ rows_nan (gj_Tpc g) i.

Lemma jac_fl npi bq fx D j : loads_jac npi bq fx D = Ok j ->
  exists g, @g_loads_jac fl _ npi bq fx D = Ok g /\ gj_Np g = j_Np j /\ gj_Tp g = j_Tp j /\
  forall i, (i < f_n fx)%nat -> exists l dN dT dR, station_dv npi bq fx D i = Ok (l, dN, dT, dR) /\ j_Np j i = o_Np l /\ j_Tp j i = o_Tp l /\
    (~ windless fx D i -> dR 0%nat <> 0 -> jac_rep g j i /\ (o_ct l <> 0 -> jac_rep_T g j i)) /\
    (~ windless fx D i -> o_ct l = 0 -> jac_nan_T g i) /\
    (windless fx D i -> l = zero_load /\ jac_nan g i /\ jac_nan_T g i).
Proof.
  unfold loads_jac, g_loads_jac. destruct (mapM (station_dv npi bq fx D) _) as [out|] eqn:M; cbn [bind]; [|discriminate].
  destruct (mapM_station _ _ _ _ _ _ M) as (gout & G & L1 & L2 & H). rewrite G. cbn [bind]. cbv zeta. intros E. apply ok_inj in E. subst j.
  rewrite seq_length in L1, L2.
  set (z := (zero_load, fun _ : nat => ofR 0, fun _ : nat => ofR 0, fun _ : nat => 0) : sload R * (nat -> fl) * (nat -> fl) * dirs).
  assert (HL : forall i, (i < f_n fx)%nat -> exists l dN dT dR gN gT, nth i out (zero_load, fun _ => 0, fun _ => 0, fun _ => 0) = (l, dN, dT, dR) /\ nth i gout z = (l, gN, gT, dR) /\
    station_dv npi bq fx D i = Ok (l, dN, dT, dR) /\
    (~ windless fx D i -> (forall k, rep (gN k) (dN k)) /\ (o_ct l <> 0 -> forall k, rep (gT k) (dT k)) /\ (o_ct l = 0 -> forall k, gT k = NaN)) /\
    (windless fx D i -> l = zero_load /\ (forall k, gN k = Fin 0) /\ (forall k, gT k = Fin 0) /\ (forall k, dR k = 0))).
  { intros i Hi. destruct (H i i) as (l & dN & dT & dR & gN & gT & E1 & E2 & E3 & E4 & E5).
    { rewrite (nth_error_nth' _ 0%nat) by (rewrite seq_length; exact Hi). rewrite seq_nth by exact Hi. reflexivity. }
    exists l, dN, dT, dR, gN, gT. split; [exact (nth_error_nth _ _ _ E1)|]. split; [exact (nth_error_nth _ _ _ E2)|]. auto. }
  eexists. split; [reflexivity|]. cbn [gj_Np gj_Tp j_Np j_Tp].
  assert (Q : (forall i, o_Np (fst (fst (fst (nth i gout z)))) = o_Np (fst (fst (fst (nth i out (zero_load, fun _ => 0, fun _ => 0, fun _ => 0)))))) /\
              (forall i, o_Tp (fst (fst (fst (nth i gout z)))) = o_Tp (fst (fst (fst (nth i out (zero_load, fun _ => 0, fun _ => 0, fun _ => 0))))))).
  { split; intros i; (destruct (lt_dec i (f_n fx)) as [Hi|Hi];
      [destruct (HL i Hi) as (l & dN & dT & dR & gN & gT & -> & -> & _); reflexivity|rewrite !nth_overflow by lia; reflexivity]). }
  destruct Q as [Q1 Q2]. split; [apply FunctionalExtensionality.functional_extensionality; exact Q1|].
  split; [apply FunctionalExtensionality.functional_extensionality; exact Q2|].
  intros i Hi. destruct (HL i Hi) as (l & dN & dT & dR & gN & gT & E1 & E2 & E3 & E4 & E5).
  exists l, dN, dT, dR. split; [exact E3|]. rewrite E1. cbn [fst]. split; [reflexivity|]. split; [reflexivity|].
  unfold jac_rep, jac_rep_T, jac_nan, jac_nan_T. cbn [gj_NX gj_TX gj_Npc gj_Tpc j_NX j_TX j_Npc j_Tpc]. fold z.
  split; [|split].
  - intros W R0. destruct (E4 W) as (A & B & _).
    assert (TN : forall j, rep (g_total (snd (fst (fst (nth i gout z)))) (fun k => Fin (snd (nth i gout z) k)) j) (total (snd (fst (fst (nth i out (zero_load, fun _ => 0, fun _ => 0, fun _ => 0))))) (snd (nth i out (zero_load, fun _ => 0, fun _ => 0, fun _ => 0))) j)).
    { intros j. rewrite E1, E2. cbn [fst snd]. apply total_rep; assumption. }
    split; [split; [apply dX_rep; exact TN|apply dpc_rep; exact TN]|]. intros C0.
    assert (TT : forall j, rep (g_total (snd (fst (nth i gout z))) (fun k => Fin (snd (nth i gout z) k)) j) (total (snd (fst (nth i out (zero_load, fun _ => 0, fun _ => 0, fun _ => 0)))) (snd (nth i out (zero_load, fun _ => 0, fun _ => 0, fun _ => 0))) j)).
    { intros j. rewrite E1, E2. cbn [fst snd]. apply total_rep; [apply B; exact C0|assumption]. }
    split; [apply dX_rep; exact TT|apply dpc_rep; exact TT].
  - intros W C0. destruct (E4 W) as (_ & _ & C).
    assert (TT : forall j, g_total (snd (fst (nth i gout z))) (fun k => Fin (snd (nth i gout z) k)) j = NaN).
    { intros j. rewrite E2. cbn [fst snd]. apply total_nan. apply C. exact C0. }
    split; [apply dX_nan; exact TT|apply dpc_nan; exact TT].
  - intros W. destruct (E5 W) as (A & B & C & Z). split; [exact A|].
    assert (TN : forall j, g_total (snd (fst (fst (nth i gout z)))) (fun k => Fin (snd (nth i gout z) k)) j = NaN).
    { intros j. rewrite E2. cbn [fst snd]. apply total_nan0; auto. }
    assert (TT : forall j, g_total (snd (fst (nth i gout z))) (fun k => Fin (snd (nth i gout z) k)) j = NaN).
    { intros j. rewrite E2. cbn [fst snd]. apply total_nan0; auto. }
    repeat split; (apply dX_nan || apply dpc_nan); assumption.
Qed.

(** A vanishing load has a vanishing coefficient, unless there is no wind. *)
Lemma wind_speed phi a ap Vx Vy pitch ch th rho mu phid ad apd vxd vyd pitchd chd thd al W Re :
  relativeWind phi a ap Vx Vy pitch ch th rho mu = (al, W, Re) ->
  rw_w (relativeWind_dv phi phid a ad ap apd Vx vxd Vy vyd pitch pitchd ch chd th thd rho mu) = W.
Proof.
  unfold relativeWind, relativeWind_dv. cbn [nlt nabs nadd nsub nmul ndiv nsqrt ncos nsin ofR R_arith]. intros E.
  apply pair_equal_spec in E. destruct E as [E _]. apply pair_equal_spec in E. destruct E as [_ <-].
  rewrite !abs_if. destruct (rltb 10 (Rabs a)); [cbn [rw_w]; unfold Rdiv; ring|].
  destruct (rltb 10 (Rabs ap)); cbn [rw_w]; [unfold Rdiv; ring|]. f_equal. ring.
Qed.
Lemma loads_W rt phi rot sc (l : sload R) : loads rt phi rot sc = Ok l -> s_Vx sc <> 0 -> s_Vy sc <> 0 ->
  exists al Re, relativeWind phi (o_a l) (o_ap l) (s_Vx sc) (s_Vy sc) (rt_pitch rt) (s_chord sc) (s_theta sc) (rt_rho rt) (rt_mu rt) = (al, o_W l, Re) /\
  o_Tp l = o_ct l * (1 / 2 * rt_rho rt * (o_W l * o_W l)) * s_chord sc /\ o_Np l = o_cn l * (1 / 2 * rt_rho rt * (o_W l * o_W l)) * s_chord sc.
Proof.
  unfold loads. cbn [neq ofR R_arith]. intros E V1 V2. apply reqb_false in V1, V2. rewrite V1, V2 in E. cbn [andb negb] in E. cbv zeta in E. revert E.
  match goal with |- bind ?x _ = _ -> _ => destruct x as [[[[a ap] cl] cd]|] end; cbn [bind]; [|discriminate].
  destruct (relativeWind _ _ _ _ _ _ _ _ _ _) as [[al W] Re] eqn:RW. intros E. apply ok_inj in E. subst l. cbn [o_a o_ap o_W o_Tp o_ct o_Np o_cn].
  exists al, Re. split; [exact RW|]. split; reflexivity.
Qed.
Lemma station_zero npi bq fx D i l dN dT dR : station_dv npi bq fx D i = Ok (l, dN, dT, dR) -> ~ windless fx D i -> f_rho fx <> 0 ->
  o_Np l <> 0 /\ (o_Tp l = 0 -> o_ct l = 0).
Proof.
  unfold station_dv. cbv zeta. match goal with |- bind ?x _ = _ -> _ => destruct x as [phi|] end; cbn [bind]; [|discriminate].
  intros E W Rh. pose proof (loads_dv_l _ _ _ _ _ _ _ _ _ E) as El.
  assert (V1 : s_Vx (sect_d fx D i) <> 0) by (unfold windless in W; cbn [sect_d s_Vx] in *; tauto).
  assert (V2 : s_Vy (sect_d fx D i) <> 0) by (unfold windless in W; cbn [sect_d s_Vy] in *; tauto).
  destruct (loads_W _ _ _ _ _ El V1 V2) as (al & Re & RW & ET & EN).
  unfold loads_dv, loads_dv_with in E. pose proof V1 as V1'. pose proof V2 as V2'. apply reqb_false in V1', V2'. rewrite V1', V2' in E.
  cbn [andb negb] in E. rewrite El in E. cbn [bind] in E.
  destruct (if negb (reqb (x_Omega D) 0) then _ else _) as [[a b] c]. destruct (f_afd fx i _ _) as [[[d1 d2] d3] d4].
  rewrite (wind_speed _ _ _ _ _ _ _ _ _ _ (eye 0) b c (eye 3) (eye 4) (eye 8) (eye 1) (eye 2) _ _ _ RW) in E.
  destruct (orb _ _) eqn:O; [discriminate|]. apply orb_false_iff in O. destruct O as [O O3]. apply orb_false_iff in O. destruct O as [O1 O2].
  apply reqb_false in O1, O2, O3. change (rt_rho (rotor_d fx D)) with (f_rho fx) in ET, EN.
  assert (Q : 1 / 2 * f_rho fx * (o_W l * o_W l) <> 0).
  { apply Rmult_integral_contrapositive_currified; [apply Rmult_integral_contrapositive_currified; [lra|exact Rh]|].
    apply Rmult_integral_contrapositive_currified; exact O2. }
  split.
  - rewrite EN. apply Rmult_integral_contrapositive_currified; [apply Rmult_integral_contrapositive_currified|]; assumption.
  - intros T0. rewrite T0 in ET. symmetry in ET. apply Rmult_integral in ET. destruct ET as [ET|ET]; [|contradiction].
    apply Rmult_integral in ET. destruct ET; [assumption|contradiction].
Qed.

Lemma jac_back npi bq fx D g : @g_loads_jac fl _ npi bq fx D = Ok g -> exists j, loads_jac npi bq fx D = Ok j.
Proof.
  intros G. destruct (loads_jac npi bq fx D) as [j|e] eqn:E; [exists j; reflexivity|]. exfalso.
  unfold loads_jac in E. unfold g_loads_jac in G. destruct (mapM (station_dv npi bq fx D) _) as [o|e'] eqn:M; cbn [bind] in E; [discriminate|].
  rewrite (mapM_raise _ _ _ _ _ _ M) in G. discriminate.
Qed.

Lemma jac_zero npi bq fx D g i : @g_loads_jac fl _ npi bq fx D = Ok g -> f_rho fx <> 0 -> (i < f_n fx)%nat ->
  (gj_Tp g i = 0 -> jac_nan_T g i) /\ (gj_Np g i = 0 -> jac_nan g i /\ jac_nan_T g i) /\ (windless fx D i -> gj_Np g i = 0 /\ gj_Tp g i = 0).
Proof.
  intros G Rh Hi. destruct (jac_back _ _ _ _ _ G) as [j J]. destruct (jac_fl _ _ _ _ _ J) as (g' & G' & EN & ET & H).
  rewrite G in G'. apply ok_inj in G'. subst g'. destruct (H i Hi) as (l & dN & dT & dR & S & N & T & _ & C & W). rewrite EN, ET, N, T.
  assert (DW : windless fx D i \/ ~ windless fx D i).
  { unfold windless. destruct (Req_dec (fst (wind_d fx D) i) 0), (Req_dec (snd (wind_d fx D) i) 0); tauto. }
  destruct DW as [DW|DW].
  - destruct (W DW) as (-> & A & B). split; [intros; exact B|]. split; [intros; split; assumption|]. intros; split; reflexivity.
  - destruct (station_zero _ _ _ _ _ _ _ _ _ S DW Rh) as [A B]. split; [intros Z; apply C; auto|]. split; intros Z; contradiction.
Qed.

(** ** The dictionaries of distributedAeroLoads *)
Lemma dict_nan n (X : nat -> nat -> fl) pc i : rows_nan X i -> rows_nan pc i -> Forall (eq NaN) (load_entries n (g_load_dict X pc) i).
Proof.
  intros H P. unfold load_entries, g_load_dict, g_diag. cbn [gl_dr gl_dchord gl_dtheta gl_dpresweep gl_dprecurve gl_dRhub gl_dRtip gl_dprecone gl_dtilt
    gl_dhubHt gl_dyaw gl_dshear gl_dazimuth gl_dUinf gl_dOmega gl_dpitch]. rewrite Nat.eqb_refl.
  apply Forall_app. split.
  - repeat (apply Forall_cons; [symmetry; apply H|]). apply Forall_nil.
  - apply Forall_forall. intros x Hx. apply in_map_iff in Hx. destruct Hx as (k & <- & _). symmetry. apply P.
Qed.
Lemma dict_rep n (X : nat -> nat -> fl) pc Y qc i : rows_rep X Y i -> rows_rep pc qc i ->
  Forall2 rep (load_entries n (g_load_dict X pc) i) (real_load_entries n (load_dict Y qc) i).
Proof.
  intros H P. unfold load_entries, real_load_entries, g_load_dict, load_dict, g_diag, diag. cbn [gl_dr gl_dchord gl_dtheta gl_dpresweep gl_dprecurve gl_dRhub gl_dRtip gl_dprecone gl_dtilt
    gl_dhubHt gl_dyaw gl_dshear gl_dazimuth gl_dUinf gl_dOmega gl_dpitch l_dr l_dchord l_dtheta l_dpresweep l_dprecurve l_dRhub l_dRtip l_dprecone l_dtilt
    l_dhubHt l_dyaw l_dshear l_dazimuth l_dUinf l_dOmega l_dpitch]. rewrite Nat.eqb_refl.
  apply Forall2_app.
  - repeat (apply Forall2_cons; [apply H|]). apply Forall2_nil.
  - induction (seq 0 n) as [|k ks IH]; cbn [map]; [apply Forall2_nil|]. apply Forall2_cons; [apply P|exact IH].
Qed.

Lemma zero_loads npi bq fx D Np Tp dN dT i : @g_distributed fl _ npi bq fx D = Ok (Np, Tp, dN, dT) -> f_rho fx <> 0 -> (i < f_n fx)%nat ->
  (Tp i = 0 -> Forall (eq NaN) (load_entries (f_n fx) dT i)) /\
  (Np i = 0 -> Forall (eq NaN) (load_entries (f_n fx) dN i) /\ Forall (eq NaN) (load_entries (f_n fx) dT i)) /\
  (windless fx D i -> Np i = 0 /\ Tp i = 0).
Proof.
  unfold g_distributed. destruct (g_loads_jac npi bq fx D) as [g|] eqn:G; cbn [bind]; [|discriminate]. intros E. apply ok_inj in E.
  apply pair_equal_spec in E. destruct E as [E <-]. apply pair_equal_spec in E. destruct E as [E <-]. apply pair_equal_spec in E. destruct E as [<- <-].
  intros Rh Hi. destruct (jac_zero _ _ _ _ _ i G Rh Hi) as (A & B & C). split; [|split; [|exact C]].
  - intros Z. destruct (A Z) as [P Q]. apply dict_nan; assumption.
  - intros Z. destruct (B Z) as [[P Q] [P' Q']]. split; apply dict_nan; assumption.
Qed.

Lemma jac_ok npi bq fx D j g i : loads_jac npi bq fx D = Ok j -> g_loads_jac npi bq fx D = Ok g -> (i < f_n fx)%nat -> divisors_ok npi bq fx D i ->
  jac_rep g j i /\ jac_rep_T g j i.
Proof.
  intros J G Hi (W & l & dN & dT & dR & S & C & R0). destruct (jac_fl _ _ _ _ _ J) as (g' & G' & _ & _ & H).
  rewrite G in G'. apply ok_inj in G'. subst g'. destruct (H i Hi) as (l' & dN' & dT' & dR' & S' & _ & _ & A & _).
  rewrite S in S'. apply ok_inj in S'. apply pair_equal_spec in S'. destruct S' as [S' <-]. apply pair_equal_spec in S'. destruct S' as [S' _].
  apply pair_equal_spec in S'. destruct S' as [<- _]. destruct (A W R0) as [A1 A2]. split; [exact A1|]. apply A2. exact C.
Qed.
Lemma distributed_same npi bq fx D Np Tp dN dT : distributed_dv npi bq fx D = Ok (Np, Tp, dN, dT) ->
  exists gN gT, @g_distributed fl _ npi bq fx D = Ok (Np, Tp, gN, gT) /\
  forall i, (i < f_n fx)%nat -> divisors_ok npi bq fx D i ->
    Forall2 rep (load_entries (f_n fx) gN i) (real_load_entries (f_n fx) dN i) /\ Forall2 rep (load_entries (f_n fx) gT i) (real_load_entries (f_n fx) dT i).
Proof.
  unfold distributed_dv, g_distributed. destruct (loads_jac npi bq fx D) as [j|] eqn:J; cbn [bind]; [|discriminate]. intros E. apply ok_inj in E.
  apply pair_equal_spec in E. destruct E as [E <-]. apply pair_equal_spec in E. destruct E as [E <-]. apply pair_equal_spec in E. destruct E as [<- <-].
  destruct (jac_fl _ _ _ _ _ J) as (g & G & <- & <- & _). rewrite G. cbn [bind]. eexists _, _. split; [reflexivity|].
  intros i Hi DO. destruct (jac_ok _ _ _ _ _ _ i J G Hi DO) as [[A B] [C E]]. split; apply dict_rep; assumption.
Qed.

(** ** evaluate *)
Lemma asum_rep n (f : nat -> fl) (h : nat -> R) : (forall i, (i < n)%nat -> rep (f i) (h i)) -> rep (g_asum n f) (asum n h).
Proof. induction n as [|n IH]; intros H; cbn [g_asum asum]; [apply rep_Fin|]. cbn [nadd fl_arith]. apply rep_add; [apply IH; auto|apply H; lia]. Qed.
Lemma asum_nan n (f : nat -> fl) i : (i < n)%nat -> f i = NaN -> g_asum n f = NaN.
Proof.
  induction n as [|n IH]; intros Hi H; [lia|]. cbn [g_asum nadd fl_arith]. destruct (Nat.eq_dec i n) as [-> |Hn]; [rewrite H; apply nan_add_r|].
  rewrite IH by (auto; lia). apply nan_add_l.
Qed.
Definition grad_rep (n : nat) (G : g_grad fl) (g : grad) : Prop :=
  (forall k, rep (gg_s G k) (g_s g k)) /\ (forall k i, (i < n)%nat -> rep (gg_v G k i) (g_v g k i)).
Definition grad_nan (i : nat) (G : g_grad fl) : Prop :=
  (forall k, In k [0; 1; 2; 3; 4; 7; 8; 9; 10; 11]%nat -> gg_s G k = NaN) /\ (forall k, (k < 5)%nat -> gg_v G k i = NaN).

Lemma deriv_rep fx D g j q : gj_Np g = j_Np j -> gj_Tp g = j_Tp j -> (forall i, (i < f_n fx)%nat -> jac_rep g j i /\ jac_rep_T g j i) ->
  grad_rep (f_n fx) (g_thrustTorqueDeriv fx D g q) (thrustTorqueDeriv fx D j q).
Proof.
  intros EN ET H. unfold g_thrustTorqueDeriv, thrustTorqueDeriv. rewrite EN, ET. set (b := thrustTorque_bv _ _ _ _ _ _ _ _ _ _ _ _ _ _ _ _ _). cbv zeta.
  assert (HX : forall k i, (i < f_n fx)%nat -> rep (nadd (nmul (ofR (tb_np b i)) (gj_NX g k i)) (nmul (ofR (tb_tp b i)) (gj_TX g k i))) (tb_np b i * j_NX j k i + tb_tp b i * j_TX j k i)).
  { intros k i Hi. destruct (H i Hi) as [[A _] [C _]]. cbn [nadd nmul ofR fl_arith]. specialize (A k). specialize (C k). rp. }
  assert (HP : forall k i, (i < f_n fx)%nat -> rep (nadd (nmul (ofR (tb_np b i)) (gj_Npc g k i)) (nmul (ofR (tb_tp b i)) (gj_Tpc g k i))) (tb_np b i * j_Npc j k i + tb_tp b i * j_Tpc j k i)).
  { intros k i Hi. destruct (H i Hi) as [[_ A] [_ C]]. cbn [nadd nmul ofR fl_arith]. specialize (A k). specialize (C k). rp. }
  split; cbn [gg_s gg_v g_s g_v].
  - intros k. do 12 (destruct k as [|k]; [cbn [nth]; try (apply rep_add; [|apply rep_Fin]); first [apply asum_rep; apply HX|apply rep_Fin]|]). destruct k; apply rep_Fin.
  - intros k i Hi. destruct k as [|k]; [cbn [nth]; apply rep_add; [apply HX; exact Hi|apply rep_Fin]|].
    do 2 (destruct k as [|k]; [cbn [nth]; apply HX; exact Hi|]).
    destruct k as [|k]; [cbn [nth]; apply rep_add; [apply asum_rep; intros m Hm; apply HP; exact Hm|apply rep_Fin]|].
    destruct k as [|k]; [cbn [nth]; apply rep_add; [apply HX; exact Hi|apply rep_Fin]|]. destruct k; apply rep_Fin.
Qed.
Lemma deriv_nan fx D g q i : (i < f_n fx)%nat -> jac_nan_T g i -> grad_nan i (g_thrustTorqueDeriv fx D g q).
Proof.
  intros Hi [A B]. unfold g_thrustTorqueDeriv. set (b := thrustTorque_bv _ _ _ _ _ _ _ _ _ _ _ _ _ _ _ _ _). cbv zeta.
  assert (HX : forall k, nadd (nmul (ofR (tb_np b i)) (gj_NX g k i)) (nmul (ofR (tb_tp b i)) (gj_TX g k i)) = NaN).
  { intros k. cbn [nadd nmul ofR fl_arith]. rewrite (A k). autorewrite with nan. reflexivity. }
  assert (HP : forall k, nadd (nmul (ofR (tb_np b i)) (gj_Npc g k i)) (nmul (ofR (tb_tp b i)) (gj_Tpc g k i)) = NaN).
  { intros k. cbn [nadd nmul ofR fl_arith]. rewrite (B k). autorewrite with nan. reflexivity. }
  split; cbn [gg_s gg_v].
  - intros k Hk. cbn [In] in Hk. repeat (destruct Hk as [<- |Hk]; [cbn [nth]; rewrite (asum_nan _ _ i Hi (HX _)); try apply nan_add_l; reflexivity|]). destruct Hk.
  - intros k Hk. do 5 (destruct k as [|k]; [cbn [nth]; rewrite ?HX, ?(asum_nan _ _ i Hi (HP _)); try apply nan_add_l; reflexivity|]). lia.
Qed.

Lemma gadd_rep n A a B b : grad_rep n A a -> grad_rep n B b -> grad_rep n (g_gadd A B) (gadd a b).
Proof. intros [H1 H2] [H3 H4]. split; cbn [g_gadd gadd gg_s gg_v g_s g_v]; intros; apply rep_add; auto. Qed.
Lemma gscale_rep n c A a : grad_rep n A a -> grad_rep n (g_gscale c A) (gscale c a).
Proof. intros [H1 H2]. split; cbn [g_gscale gscale gg_s gg_v g_s g_v]; intros; apply rep_mul; auto; apply rep_Fin. Qed.
Lemma gzero_rep n : grad_rep n g_gzero gzero.
Proof. split; intros; apply rep_Fin. Qed.
Lemma gadd_nan_l i A B : grad_nan i A -> grad_nan i (g_gadd A B).
Proof. intros [H1 H2]. split; cbn [g_gadd gg_s gg_v]; intros; rewrite ?H1, ?H2 by auto; apply nan_add_l. Qed.
Lemma gadd_nan_r i A B : grad_nan i B -> grad_nan i (g_gadd A B).
Proof. intros [H1 H2]. split; cbn [g_gadd gg_s gg_v]; intros; rewrite ?H1, ?H2 by auto; apply nan_add_r. Qed.
Lemma gscale_nan i c A : grad_nan i A -> grad_nan i (g_gscale c A).
Proof. intros [H1 H2]. split; cbn [g_gscale gg_s gg_v]; intros; rewrite ?H1, ?H2 by auto; apply nan_mul_r. Qed.

Definition totals_rep (n : nat) (G : g_totals fl) (t : totals_dv) : Prop :=
  grad_rep n (gt_T G) (td_T t) /\ grad_rep n (gt_Y G) (td_Y t) /\ grad_rep n (gt_Z G) (td_Z t) /\ grad_rep n (gt_Q G) (td_Q t) /\
  grad_rep n (gt_My G) (td_My t) /\ grad_rep n (gt_Mz G) (td_Mz t) /\ grad_rep n (gt_Mb G) (td_Mb t).
Definition totals_nan (i : nat) (G : g_totals fl) : Prop :=
  grad_nan i (gt_T G) /\ grad_nan i (gt_Y G) /\ grad_nan i (gt_Z G) /\ grad_nan i (gt_Q G) /\
  grad_nan i (gt_My G) /\ grad_nan i (gt_Mz G) /\ grad_nan i (gt_Mb G).

Lemma tot_add_tot fx D az g j G t : gj_Np g = j_Np j -> gj_Tp g = j_Tp j -> gt_tot G = td_tot t -> gt_tot (@g_tot_add fl _ fx D az g G) = td_tot (totd_add fx D az j t).
Proof. intros E1 E2 E3. unfold g_tot_add, totd_add. rewrite E1, E2, E3. destruct (thrustTorque _ _ _ _ _ _ _ _ _ _ _) as [[[[? ?] ?] ?] ?]. reflexivity. Qed.
Lemma tot_add_rep fx D az g j G t : gj_Np g = j_Np j -> gj_Tp g = j_Tp j -> (forall i, (i < f_n fx)%nat -> jac_rep g j i /\ jac_rep_T g j i) ->
  totals_rep (f_n fx) G t -> totals_rep (f_n fx) (g_tot_add fx D az g G) (totd_add fx D az j t).
Proof.
  intros E1 E2 H (A1 & A2 & A3 & A4 & A5 & A6 & A7). pose proof (fun q => deriv_rep fx D g j q E1 E2 H) as Q.
  unfold g_tot_add, totd_add, totals_rep. destruct (thrustTorque _ (gj_Np g) _ _ _ _ _ _ _ _ _) as [[[[? ?] ?] ?] ?].
  destruct (thrustTorque _ (j_Np j) _ _ _ _ _ _ _ _ _) as [[[[? ?] ?] ?] ?].
  cbn [gt_T gt_Y gt_Z gt_Q gt_My gt_Mz gt_Mb td_T td_Y td_Z td_Q td_My td_Mz td_Mb].
  refine (conj _ (conj _ (conj _ (conj _ (conj _ (conj _ _)))))).
  all: apply gadd_rep; [assumption|]. all: apply gscale_rep. all: try apply Q. all: apply gadd_rep; apply gscale_rep; apply Q.
Qed.
Lemma tot_add_keep fx D az g G i : totals_nan i G -> totals_nan i (g_tot_add fx D az g G).
Proof.
  intros (A1 & A2 & A3 & A4 & A5 & A6 & A7). unfold g_tot_add, totals_nan. destruct (thrustTorque _ _ _ _ _ _ _ _ _ _ _) as [[[[? ?] ?] ?] ?].
  cbn [gt_T gt_Y gt_Z gt_Q gt_My gt_Mz gt_Mb].
  refine (conj _ (conj _ (conj _ (conj _ (conj _ (conj _ _)))))). all: apply gadd_nan_l; assumption.
Qed.
Lemma tot_add_nan fx D az g G i : (i < f_n fx)%nat -> jac_nan_T g i -> totals_nan i (g_tot_add fx D az g G).
Proof.
  intros Hi H. pose proof (fun q => deriv_nan fx D g q i Hi H) as Q. unfold g_tot_add, totals_nan. destruct (thrustTorque _ _ _ _ _ _ _ _ _ _ _) as [[[[? ?] ?] ?] ?].
  cbn [gt_T gt_Y gt_Z gt_Q gt_My gt_Mz gt_Mb].
  refine (conj _ (conj _ (conj _ (conj _ (conj _ (conj _ _)))))). all: apply gadd_nan_r, gscale_nan. all: try apply Q. all: apply gadd_nan_l, gscale_nan, Q.
Qed.

Lemma sectors_fl npi bq fx D : forall azs t t' G, sectors_dv npi bq fx D azs t = Ok t' -> gt_tot G = td_tot t ->
  exists G', g_sectors npi bq fx D azs G = Ok G' /\ gt_tot G' = td_tot t' /\
  ((forall az i, In az azs -> (i < f_n fx)%nat -> divisors_ok npi bq fx (set_azimuth D (degrees az)) i) -> totals_rep (f_n fx) G t -> totals_rep (f_n fx) G' t').
Proof.
  induction azs as [|az azs IH]; intros t t' G E Et; cbn [sectors_dv g_sectors] in *.
  - apply ok_inj in E. subst t'. exists G. auto.
  - destruct (loads_jac npi bq fx (set_azimuth D (degrees az))) as [j|] eqn:J; cbn [bind] in E; [|discriminate].
    destruct (jac_fl _ _ _ _ _ J) as (g & HG & EN & ET & _). rewrite HG. cbn [bind].
    destruct (IH _ _ (g_tot_add fx D az g G) E) as (G' & HG' & E' & H). { apply tot_add_tot; assumption. }
    exists G'. split; [exact HG'|]. split; [exact E'|]. intros DO RP. apply H; [intros az' i Ha; apply DO; right; exact Ha|].
    apply tot_add_rep; auto. intros i Hi. apply (jac_ok _ _ _ _ _ _ i J HG Hi). apply DO; [left; reflexivity|exact Hi].
Qed.
Lemma sectors_back npi bq fx D : forall azs t G G', g_sectors (A := fl) npi bq fx D azs G = Ok G' -> exists t', sectors_dv npi bq fx D azs t = Ok t'.
Proof.
  induction azs as [|az azs IH]; intros t G G' E; cbn [sectors_dv g_sectors] in *; [eexists; reflexivity|].
  destruct (g_loads_jac _ _ _ _) as [g|] eqn:HG; cbn [bind] in E; [|discriminate]. destruct (jac_back _ _ _ _ _ HG) as [j ->]. cbn [bind].
  exact (IH _ _ _ E).
Qed.
Lemma sectors_nan npi bq fx D i : (i < f_n fx)%nat -> forall azs G G', g_sectors npi bq fx D azs G = Ok G' ->
  (totals_nan i G -> totals_nan i G') /\
  (forall az g, In az azs -> g_loads_jac npi bq fx (set_azimuth D (degrees az)) = Ok g -> jac_nan_T g i -> totals_nan i G').
Proof.
  intros Hi. induction azs as [|az azs IH]; intros G G' E; cbn [g_sectors] in E.
  - apply ok_inj in E. subst G'. split; [auto|]. intros az g [].
  - destruct (g_loads_jac npi bq fx (set_azimuth D (degrees az))) as [g|] eqn:HG; cbn [bind] in E; [|discriminate].
    destruct (IH _ _ E) as [A B]. split; [intros N; apply A, tot_add_keep; exact N|].
    intros az' g' [<- |Ha] Hg N; [|exact (B az' g' Ha Hg N)]. rewrite HG in Hg. apply ok_inj in Hg. subst g'. apply A, tot_add_nan; assumption.
Qed.

(** Entries of the dictionaries. *)
Lemma tt_same n G g i : (i < n)%nat -> grad_rep n G g -> same_numbers (g_tt_dict G) (tt_dict g) i.
Proof.
  intros Hi [A B]. unfold same_numbers, scalar_entries, tip_entries, array_entries, real_entries, g_tt_dict, tt_dict.
  cbn [ge_dprecone ge_dtilt ge_dhubHt ge_dRhub ge_dRtip ge_dyaw ge_dshear ge_dUinf ge_dOmega ge_dpitch ge_dprecurveTip ge_dpresweepTip ge_dr ge_dchord ge_dtheta
    ge_dprecurve ge_dpresweep e_dprecone e_dtilt e_dhubHt e_dRhub e_dRtip e_dyaw e_dshear e_dUinf e_dOmega e_dpitch e_dprecurveTip e_dpresweepTip e_dr e_dchord e_dtheta
    e_dprecurve e_dpresweep app].
  repeat (apply Forall2_cons; [first [apply A|apply B; exact Hi]|]). apply Forall2_nil.
Qed.
Lemma tt_nan i G : grad_nan i G -> Forall (eq NaN) (scalar_entries (g_tt_dict G) ++ array_entries (g_tt_dict G) i).
Proof.
  intros [A B]. unfold scalar_entries, array_entries, g_tt_dict.
  cbn [ge_dprecone ge_dtilt ge_dhubHt ge_dRhub ge_dRtip ge_dyaw ge_dshear ge_dUinf ge_dOmega ge_dpitch ge_dr ge_dchord ge_dtheta ge_dprecurve ge_dpresweep app].
  repeat (apply Forall_cons; [symmetry; first [apply A; cbn; tauto|apply B; lia]|]). apply Forall_nil.
Qed.
Lemma tt_scalar_nan G : (forall k, gg_s G k = NaN) -> Forall (eq NaN) (scalar_entries (g_tt_dict G) ++ tip_entries (g_tt_dict G)).
Proof.
  intros A. unfold scalar_entries, tip_entries, g_tt_dict.
  cbn [ge_dprecone ge_dtilt ge_dhubHt ge_dRhub ge_dRtip ge_dyaw ge_dshear ge_dUinf ge_dOmega ge_dpitch ge_dprecurveTip ge_dpresweepTip app].
  repeat (apply Forall_cons; [symmetry; apply A|]). apply Forall_nil.
Qed.

(** What a coefficient's scalar entries are when the force is zero. *)
Lemma quot_zero d : rep (fdiv (Fin 0) (Fin d)) 0 \/ fdiv (Fin 0) (Fin d) = NaN.
Proof.
  destruct (Req_dec d 0) as [-> |Hd]; [right; apply zero_over_zero|left]. replace 0 with (0 / d) at 2 by (unfold Rdiv; ring).
  apply rep_div; try apply rep_Fin. exact Hd.
Qed.
Lemma quot_wild d x : wild x -> fmul (fdiv (Fin 0) (Fin d)) x = NaN.
Proof. intros W. destruct (quot_zero d) as [H|H]; [apply zero_wild; assumption|]. rewrite H. apply nan_mul_l. Qed.
Lemma force_nan rho D d dF k : gg_s (g_dC_force rho D (fdiv (Fin 0) (Fin d)) 0 dF) k = NaN.
Proof. cbn [g_dC_force gg_s nmul nsub ndiv ofR fl_arith]. apply quot_wild, wild_sub_l, wild_sub_l, over_zero. Qed.
Lemma moment_nan rho D d dF k : gg_s (g_dC_moment rho D (fdiv (Fin 0) (Fin d)) 0 dF) k = NaN.
Proof. cbn [g_dC_moment gg_s nmul nsub ndiv ofR fl_arith]. apply quot_wild, wild_sub_l, wild_sub_l, wild_sub_l, over_zero. Qed.
Lemma power_nan_Q rho D d dF k : gg_s (g_dC_power rho D (fdiv (Fin 0) (Fin d)) 0 dF) k = NaN.
Proof. cbn [g_dC_power gg_s nadd nmul nsub ndiv ofR fl_arith]. apply quot_wild, wild_sub_l, wild_sub_l, wild_sub_l, wild_add_l, over_zero. Qed.
Lemma wild_add_r x y : wild y -> wild (fadd x y).
Proof. unfold wild. intros [-> |[-> | ->]]; destruct x; cbn; auto. Qed.
Lemma power_nan_O rho D d Q dF k : x_Omega D = 0 -> gg_s (g_dC_power rho D (fdiv (Fin 0) (Fin d)) Q dF) k = NaN.
Proof.
  intros HO. cbn [g_dC_power gg_s nadd nmul nsub ndiv ofR fl_arith]. rewrite HO. apply quot_wild, wild_sub_l, wild_sub_l, wild_sub_l, wild_add_r, over_zero.
Qed.
Lemma power_array rho D d dF k i : gg_v (g_dC_power rho D (fdiv (Fin 0) (Fin d)) 0 dF) k i = NaN.
Proof.
  cbn [g_dC_power gg_v nmul ndiv ofR fl_arith]. assert (Z : reqb 0 0 = true) by (apply reqb_true; reflexivity).
  destruct (quot_zero d) as [H|H]; [|rewrite H, nan_mul_r; apply nan_div_l]. apply rep_inv in H.
  assert (HM : forall x c, c = Fin 0 \/ c = NZ -> rep (fmul x c) 0 \/ fmul x c = NaN).
  { intros x c Hc. destruct x.
    1: left; replace 0 with (x * 0) by ring; apply rep_mul; [apply rep_Fin|].
    2: left; replace 0 with (0 * 0) by ring; apply rep_mul; [reflexivity|].
    1,2: destruct Hc as [-> | ->]; reflexivity.
    all: right; destruct Hc as [-> | ->]; cbn; rewrite ?Z; reflexivity. }
  destruct (HM (gg_v dF k i) (fdiv (Fin 0) (Fin d))) as [E|E]; [tauto| |rewrite E; apply nan_div_l].
  apply rep_inv in E. destruct E as [-> |[-> _]]; cbn; rewrite ?Z; reflexivity.
Qed.

(** ** The results of evaluate *)
Lemma force_rep n rho D C c F dF df : F <> 0 -> dyn rho D <> 0 -> area D <> 0 -> rep C c -> grad_rep n dF df ->
  grad_rep n (g_dC_force rho D C F dF) (dC_force rho D c F df).
Proof.
  intros HF Hq HA HC [A B]. assert (HQA : dyn rho D * area D <> 0) by (apply Rmult_integral_contrapositive_currified; assumption).
  split; cbn [g_dC_force dC_force gg_s gg_v g_s g_v nmul nsub ndiv ofR fl_arith]; intros.
  - specialize (A k). rp.
  - apply rep_div; [apply B; assumption|apply rep_Fin|exact HQA].
Qed.
Lemma moment_rep n rho D C c F dF df : F <> 0 -> dyn rho D <> 0 -> area D <> 0 -> rotorR_d D <> 0 -> rep C c -> grad_rep n dF df ->
  grad_rep n (g_dC_moment rho D C F dF) (dC_moment rho D c F df).
Proof.
  intros HF Hq HA HR HC [A B]. assert (HQA : dyn rho D * rotorR_d D * area D <> 0) by (repeat first [assumption | apply Rmult_integral_contrapositive_currified]).
  split; cbn [g_dC_moment dC_moment gg_s gg_v g_s g_v nmul nsub ndiv ofR fl_arith]; intros.
  - specialize (A k). rp.
  - apply rep_div; [apply B; assumption|apply rep_Fin|exact HQA].
Qed.
Lemma power_rep n rho D C c F dF df : F <> 0 -> dyn rho D <> 0 -> area D <> 0 -> x_Omega D <> 0 -> x_Uinf D <> 0 -> rep C c -> grad_rep n dF df ->
  grad_rep n (g_dC_power rho D C F dF) (dC_power rho D c F df).
Proof.
  intros HF Hq HA HO HU HC [A B].
  split; cbn [g_dC_power dC_power gg_s gg_v g_s g_v nadd nmul nsub ndiv ofR fl_arith]; intros.
  - specialize (A k). rp.
  - apply rep_div; [apply rep_mul; [apply B; assumption|exact HC]|apply rep_Fin|exact HF].
Qed.
Lemma dP_rep n D Q dQ dq : grad_rep n dQ dq -> grad_rep n (g_dP_of D Q dQ) (dP_of D Q dq).
Proof.
  intros [A B]. assert (H30 : 30 <> 0) by lra.
  split; cbn [g_dP_of dP_of gg_s gg_v g_s g_v nadd nmul ndiv ofR fl_arith]; intros.
  - specialize (A k). apply rep_add; [rp|]. destruct (Nat.eqb k 10); rp.
  - specialize (B k i H). rp.
Qed.
Lemma force_gnan rho D C F dF i : grad_nan i dF -> grad_nan i (g_dC_force rho D C F dF).
Proof. intros [A B]. split; cbn [g_dC_force gg_s gg_v nmul nsub ndiv ofR fl_arith]; intros; rewrite ?A, ?B by assumption; autorewrite with nan; reflexivity. Qed.
Lemma moment_gnan rho D C F dF i : grad_nan i dF -> grad_nan i (g_dC_moment rho D C F dF).
Proof. intros [A B]. split; cbn [g_dC_moment gg_s gg_v nmul nsub ndiv ofR fl_arith]; intros; rewrite ?A, ?B by assumption; autorewrite with nan; reflexivity. Qed.
Lemma power_gnan rho D C F dF i : grad_nan i dF -> grad_nan i (g_dC_power rho D C F dF).
Proof. intros [A B]. split; cbn [g_dC_power gg_s gg_v nadd nmul nsub ndiv ofR fl_arith]; intros; rewrite ?A, ?B by assumption; autorewrite with nan; reflexivity. Qed.
Lemma dP_gnan D Q dF i : grad_nan i dF -> grad_nan i (g_dP_of D Q dF).
Proof. intros [A B]. split; cbn [g_dP_of gg_s gg_v nadd nmul ndiv ofR fl_arith]; intros; rewrite ?A, ?B by assumption; autorewrite with nan; reflexivity. Qed.

Ltac by_shape :=
  match goal with
  | |- grad_nan _ (g_dC_force _ _ _ _ _) => apply force_gnan
  | |- grad_nan _ (g_dC_moment _ _ _ _ _) => apply moment_gnan
  | |- grad_nan _ (g_dC_power _ _ _ _ _) => apply power_gnan
  | |- grad_nan _ (g_dP_of _ _ _) => apply dP_gnan
  | |- grad_rep _ (g_dP_of _ _ _) _ => apply dP_rep
  | |- _ => idtac
  end; assumption.

Lemma evaluate_zero npi bq fx D ev : g_evaluate npi bq fx D = Ok ev ->
  (t_T (gv_tot ev) = 0 -> no_scalars (gv_dCT ev)) /\ (t_Y (gv_tot ev) = 0 -> no_scalars (gv_dCY ev)) /\ (t_Z (gv_tot ev) = 0 -> no_scalars (gv_dCZ ev)) /\
  (t_Q (gv_tot ev) = 0 -> no_scalars (gv_dCQ ev)) /\ (t_My (gv_tot ev) = 0 -> no_scalars (gv_dCMy ev)) /\ (t_Mz (gv_tot ev) = 0 -> no_scalars (gv_dCMz ev)) /\
  (t_Mb (gv_tot ev) = 0 -> no_scalars (gv_dCMb ev)) /\
  (t_Q (gv_tot ev) = 0 \/ x_Omega D = 0 -> no_scalars (gv_dCP ev)) /\ (t_Q (gv_tot ev) = 0 -> forall i, Forall (eq NaN) (array_entries (gv_dCP ev) i)).
Proof.
  unfold g_evaluate. destruct (g_sectors _ _ _ _ _ _) as [t|]; cbn [bind]; [|discriminate]. intros E. apply ok_inj in E. subst ev.
  unfold g_finish. cbv zeta. cbn [gv_tot gv_dCT gv_dCY gv_dCZ gv_dCQ gv_dCMy gv_dCMz gv_dCMb gv_dCP]. cbn [ndiv ofR fl_arith].
  assert (ZP : forall a b, t_Q (gt_tot t) = 0 \/ x_Omega D = 0 -> t_Q (gt_tot t) * x_Omega D * a / b = 0) by (intros a b [-> | ->]; unfold Rdiv; ring).
  refine (conj _ (conj _ (conj _ (conj _ (conj _ (conj _ (conj _ (conj _ _)))))))); intros Z; [..|].
  1-3: apply tt_scalar_nan; intros k; rewrite Z; apply force_nan.
  1-4: apply tt_scalar_nan; intros k; rewrite Z; apply moment_nan.
  - apply tt_scalar_nan. intros k. rewrite ZP by exact Z. destruct Z as [Z|Z]; [rewrite Z; apply power_nan_Q|apply power_nan_O; exact Z].
  - intros i. unfold array_entries, g_tt_dict. cbn [ge_dr ge_dchord ge_dtheta ge_dprecurve ge_dpresweep]. rewrite ZP by (left; exact Z). rewrite Z.
    repeat (apply Forall_cons; [symmetry; apply power_array|]). apply Forall_nil.
Qed.

Lemma evaluate_station npi bq fx D ev az Np Tp dN dT i : g_evaluate npi bq fx D = Ok ev -> f_rho fx <> 0 -> In az (azimuths (f_nSector fx)) -> (i < f_n fx)%nat ->
  @g_distributed fl _ npi bq fx (set_azimuth D (degrees az)) = Ok (Np, Tp, dN, dT) -> Tp i = 0 ->
  Forall (fun E => Forall (eq NaN) (scalar_entries E ++ array_entries E i)) (all_dicts ev).
Proof.
  unfold g_evaluate. destruct (g_sectors _ _ _ _ _ _) as [t|] eqn:ES; cbn [bind]; [|discriminate]. intros E. apply ok_inj in E. subst ev.
  intros Rh Ha Hi Ed ZT. unfold g_distributed in Ed. destruct (g_loads_jac npi bq fx _) as [g|] eqn:G; cbn [bind] in Ed; [|discriminate]. apply ok_inj in Ed.
  apply pair_equal_spec in Ed. destruct Ed as [Ed _]. apply pair_equal_spec in Ed. destruct Ed as [Ed _]. apply pair_equal_spec in Ed. destruct Ed as [_ <-].
  destruct (jac_zero _ _ _ _ _ i G Rh Hi) as (A & _). destruct (sectors_nan _ _ _ _ i Hi _ _ _ ES) as [_ B].
  destruct (B az g Ha G (A ZT)) as (N1 & N2 & N3 & N4 & N5 & N6 & N7).
  unfold all_dicts, g_finish. cbv zeta. cbn [gv_dT gv_dY gv_dZ gv_dQ gv_dMy gv_dMz gv_dMb gv_dP gv_dCT gv_dCY gv_dCZ gv_dCQ gv_dCMy gv_dCMz gv_dCMb gv_dCP].
  repeat (apply Forall_cons; [apply tt_nan; by_shape|]).
  apply Forall_nil.
Qed.

Lemma evaluate_same npi bq fx D v : evaluate_dv npi bq fx D = Ok v -> dyn (f_rho fx) D <> 0 -> rotorR_d D <> 0 ->
  (forall az i, In az (azimuths (f_nSector fx)) -> (i < f_n fx)%nat -> divisors_ok npi bq fx (set_azimuth D (degrees az)) i) ->
  exists ev, g_evaluate npi bq fx D = Ok ev /\ gv_tot ev = ev_tot v /\ forall i, (i < f_n fx)%nat ->
    Forall2 (fun E E' => same_numbers E E' i) [gv_dT ev; gv_dY ev; gv_dZ ev; gv_dQ ev; gv_dMy ev; gv_dMz ev; gv_dMb ev; gv_dP ev]
                                              [ev_dT v; ev_dY v; ev_dZ v; ev_dQ v; ev_dMy v; ev_dMz v; ev_dMb v; ev_dP v] /\
    (t_T (ev_tot v) <> 0 -> same_numbers (gv_dCT ev) (ev_dCT v) i) /\ (t_Y (ev_tot v) <> 0 -> same_numbers (gv_dCY ev) (ev_dCY v) i) /\
    (t_Z (ev_tot v) <> 0 -> same_numbers (gv_dCZ ev) (ev_dCZ v) i) /\ (t_Q (ev_tot v) <> 0 -> same_numbers (gv_dCQ ev) (ev_dCQ v) i) /\
    (t_My (ev_tot v) <> 0 -> same_numbers (gv_dCMy ev) (ev_dCMy v) i) /\ (t_Mz (ev_tot v) <> 0 -> same_numbers (gv_dCMz ev) (ev_dCMz v) i) /\
    (t_Mb (ev_tot v) <> 0 -> same_numbers (gv_dCMb ev) (ev_dCMb v) i) /\
    (t_Q (ev_tot v) <> 0 -> x_Omega D <> 0 -> same_numbers (gv_dCP ev) (ev_dCP v) i).
Proof.
  unfold evaluate_dv, g_evaluate. destruct (sectors_dv _ _ _ _ _ _) as [t|] eqn:ES; cbn [bind]; [|discriminate]. intros E. apply ok_inj in E. subst v.
  intros Hq HR DO. destruct (sectors_fl _ _ _ _ _ _ _ g_tot0 ES eq_refl) as (G & -> & ET & H). cbn [bind]. eexists. split; [reflexivity|].
  assert (T0 : totals_rep (f_n fx) g_tot0 totd0) by (refine (conj _ (conj _ (conj _ (conj _ (conj _ (conj _ _)))))); apply gzero_rep).
  destruct (H DO T0) as (N1 & N2 & N3 & N4 & N5 & N6 & N7).
  assert (HA : area D <> 0).
  { unfold area. apply Rmult_integral_contrapositive_currified; [apply PI_neq0|]. apply pow_nonzero. exact HR. }
  assert (HQA : dyn (f_rho fx) D * area D <> 0) by (apply Rmult_integral_contrapositive_currified; assumption).
  assert (HQR : dyn (f_rho fx) D * rotorR_d D * area D <> 0) by (repeat first [assumption | apply Rmult_integral_contrapositive_currified]).
  assert (HU : x_Uinf D <> 0) by (intros Z; apply Hq; unfold dyn; rewrite Z; ring).
  assert (HQU : dyn (f_rho fx) D * area D * x_Uinf D <> 0) by (repeat first [assumption | apply Rmult_integral_contrapositive_currified]).
  unfold g_finish, finish_dv. cbv zeta. rewrite ET.
  cbn [gv_tot gv_dT gv_dY gv_dZ gv_dQ gv_dMy gv_dMz gv_dMb gv_dP gv_dCT gv_dCY gv_dCZ gv_dCQ gv_dCMy gv_dCMz gv_dCMb gv_dCP
       ev_tot ev_dT ev_dY ev_dZ ev_dQ ev_dMy ev_dMz ev_dMb ev_dP ev_dCT ev_dCY ev_dCZ ev_dCQ ev_dCMy ev_dCMz ev_dCMb ev_dCP].
  cbn [ndiv ofR fl_arith]. split; [reflexivity|]. intros i Hi. split.
  { repeat (apply Forall2_cons; [apply (tt_same _ _ _ _ Hi); by_shape|]). apply Forall2_nil. }
  refine (conj _ (conj _ (conj _ (conj _ (conj _ (conj _ (conj _ _))))))); intros HF; try intros HO; apply (tt_same _ _ _ _ Hi).
  8: apply power_rep; auto. 4-7: apply moment_rep; auto. 1-3: apply force_rep; auto.
  all: apply rep_div; try apply rep_Fin; assumption.
Qed.
