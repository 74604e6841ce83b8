(** A coned blade and the same blade written with precurve (C89, C90). *)
From Coquelicot Require Import Coquelicot.
From Coq Require Import Reals Bool Arith List Lra Lia.
From Verif Require Import Prelim CSystem CSystemSpec Num Bem BemGeomSpec BemGeomProofs Interp InterpSpec Blade IndSpec IndProofs BladeSpec FlProofs StationProofs StationWitness StationLoads StationExist BladeProofs
  SectorProofs ConstructProofs SectorWitness SimilaritySpec SimilarityProofs SymmetryProofs ParkedSpec ParkedProofs ParkedWitness PlacementSpec PlacementProofs.
Import ListNotations.
Open Scope R_scope.

(** A section whose normal force coefficient is the squared sine of the angle of attack, without tangential force. *)
Definition sq_cl (al Re : R) : R := sin al ^ 2 * cos al.
Definition sq_cd (al Re : R) : R := sin al ^ 2 * sin al.
Definition sq_af : airfoil fl := fun al _ => match fval al with Some x => (Fin (sq_cl x 0), Fin (sq_cd x 0)) | None => (NaN, NaN) end.
Definition no_loss : bemopts := mkOpts true false false true.

Lemma sq_computes : computes sq_af sq_cl sq_cd.
Proof. intros al' Re' al Re H _. unfold sq_af. unfold rep in H. rewrite H. split; apply rep_Fin. Qed.
Lemma sq_cl_cont Re al : continuous (fun al => sq_cl al Re) al.
Proof.
  unfold sq_cl. apply (ex_derive_continuous (fun al => sin al ^ 2 * cos al)). auto_derive. exact I.
Qed.
Lemma sq_cd_cont Re al : continuous (fun al => sq_cd al Re) al.
Proof.
  unfold sq_cd. apply (ex_derive_continuous (fun al => sin al ^ 2 * sin al)). auto_derive. exact I.
Qed.

Lemma sq_lossF B r Rhub Rtip phi : lossF no_loss B r Rhub Rtip phi = 1.
Proof. unfold lossF. cbn. ring. Qed.
Lemma sq_cn phi : coef_n true (sq_cl phi 0) (sq_cd phi 0) phi = sin phi ^ 2.
Proof.
  unfold coef_n, sq_cl, sq_cd. pose proof (sin2_cos2 phi) as T. unfold Rsqr in T.
  replace (sin phi ^ 2 * cos phi * cos phi + sin phi ^ 2 * sin phi * sin phi) with (sin phi ^ 2 * (sin phi * sin phi + cos phi * cos phi)) by ring. rewrite T. ring.
Qed.
Lemma sq_loading B r chord Rhub Rtip phi Re : 0 < sin phi -> loading no_loss B r chord Rhub Rtip phi (sq_cl phi Re) (sq_cd phi Re) = solidity B chord r / 4.
Proof.
  intros H. unfold loading. rewrite sq_lossF. change (useCd no_loss) with true. change (sq_cl phi Re) with (sq_cl phi 0). change (sq_cd phi Re) with (sq_cd phi 0). rewrite sq_cn. field. lra.
Qed.
Lemma sq_loading_t B r chord Rhub Rtip phi Re : 0 < sin phi -> cos phi <> 0 -> loading_t no_loss B r chord Rhub Rtip phi (sq_cl phi Re) (sq_cd phi Re) = 0.
Proof.
  intros H Hc. unfold loading_t, coef_t. rewrite sq_lossF. change (useCd no_loss) with true. unfold sq_cl, sq_cd. field. lra.
Qed.
Lemma sq_ind B r chord Rhub Rtip phi Re Vx Vy : inside B r Rhub Rtip phi -> cos phi <> 0 -> 0 <= solidity B chord r <= 2 -> Vx <> 0 -> Vy <> 0 ->
  let k := solidity B chord r / 4 in
  inductionFactors no_loss B r chord Rhub Rtip phi (sq_cl phi Re) (sq_cd phi Re) Vx Vy = (sin phi * (1 + k) - cos phi * (Vx / Vy), k / (1 + k), 0).
Proof.
  intros Hin Hc Hs HVx HVy k. assert (S : 0 < sin phi) by (apply sin_gt_0; apply Hin).
  rewrite ind_pos by assumption. cbn [wakerotation no_loss]. rewrite kp_spec, sq_loading, sq_loading_t, sq_lossF by assumption. fold k.
  assert (K : 0 <= k <= 1 / 2) by (unfold k; lra).
  assert (A : axial_pos k 1 = k / (1 + k)). { rewrite axial_pos_R. rb_if; [reflexivity|lra]. }
  rewrite A. repeat apply (f_equal2 pair); field; repeat split; try assumption; try lra.
Qed.

(** Axial induction factor and relative speed of such a station, whatever inflow angle the root finder returns. *)
Lemma sq_station npi bq B r chord Vx Vy Rhub Rtip rho mu :
  3 < npi < PI -> root_inside bq -> accepts_sign_change bq -> (1 <= B)%nat -> 0 < Rhub < r -> r < Rtip ->
  0 <= solidity B chord r <= 2 -> mu <> 0 -> 0 < Vx <= Vy -> Vx / Vy >= 1 / 1000 ->
  exists l, solve_station npi bq (mkRotor (Fin Rhub) (Fin Rtip) B (Fin rho) (Fin mu) no_loss 1 (Fin 0)) true
      (mkSect (Fin r) (Fin chord) (Fin 0) sq_af (Fin Vx) (Fin Vy)) = Ok l /\
    rep (o_a l) (solidity B chord r / 4 / (1 + solidity B chord r / 4)).
Proof.
  intros Hn Hb1 Hb2 HB Hh Ht Hsol Hmu HV Hq. set (k := solidity B chord r / 4).
  assert (K : 0 <= k <= 1 / 2) by (unfold k; lra).
  set (rt := mkRotor (Fin Rhub) (Fin Rtip) B (Fin rho) (Fin mu) no_loss 1 (Fin 0)).
  set (sc := mkSect (Fin r) (Fin chord) (Fin 0) sq_af (Fin Vx) (Fin Vy)).
  assert (HVq : Vx / Vy <= 1).
  { apply Rmult_le_reg_r with Vy; [lra|]. replace (Vx / Vy * Vy) with Vx by (field; lra). lra. }
  assert (Hin : forall phi, 0 < phi < PI -> inside B r Rhub Rtip phi) by (intros; unfold inside; auto).
  assert (RR : forall phi, 0 < phi < PI -> cos phi <> 0 -> rep (errf rt sc 0 (Fin phi)) (sin phi * (1 + k) - cos phi * (Vx / Vy))).
  { intros phi Hphi Hcs. assert (S : 0 < sin phi) by (apply sin_gt_0; lra).
    pose proof (residual_rep rt sc r chord 0 Vx Vy Rhub Rtip rho mu 0 sq_cl sq_cd phi
      (rep_Fin _) (rep_Fin _) (rep_Fin _) (rep_Fin _) (rep_Fin _) (rep_Fin _) (rep_Fin _) (rep_Fin _) (rep_Fin _) (rep_Fin _)
      sq_computes Hmu ltac:(lra) ltac:(lra) (Hin phi Hphi) Hcs) as H. cbv zeta in H.
    change (rt_opts rt) with no_loss in H. change (rt_B rt) with B in H. replace (phi - (0 + 0)) with phi in H by ring.
    rewrite sq_loading in H by exact S. specialize (H ltac:(lra)). rewrite sq_ind in H by (auto; lra).
    unfold out_fzero in H. cbn [fst] in H. exact H. }
  assert (HS : exists v, solve npi bq (errf rt sc 0) = Ok (Fin v) /\ 1 / 1000000 <= v <= npi / 2).
  { destruct (solve_succeeds npi bq rt sc r chord 0 Vx Vy Rhub Rtip rho mu 0 sq_cl sq_cd) as (v & H1 & H2 & _);
      try assumption; try apply rep_Fin; try lra.
    - exact sq_computes.
    - exact sq_cl_cont.
    - exact sq_cd_cont.
    - cbv zeta. change (rt_opts rt) with no_loss. intros phi Hphi. replace (phi - (0 + 0)) with phi by ring. destruct (bracket_trig npi phi Hn Hphi) as [G _].
      rewrite sq_loading by (apply sin_gt_0; lra). change (rt_B rt) with B. fold k. lra.
    - right. destruct eps_trig as ((S0 & S1) & C0 & C1). unfold eps in *. destruct (half_trig npi Hn) as ((C2 & C3) & S2 & S3).
      pose proof PI2_1. split.
      + eapply rep_neg_sign; [apply RR; lra|]. nra.
      + eapply rep_pos; [apply RR; lra|]. nra.
    - eauto. }
  destruct HS as (v & HS & Hv). destruct (bracket_trig npi v Hn Hv) as [Hv2 Hv3].
  unfold solve_station. change (rt_iterRe rt) with 1%nat. cbv iota. rewrite HS. cbn [bind].
  destruct (loads_ok rt (Fin v) true sc 0 eq_refl) as (l0 & EL). rewrite EL. cbn [bind].
  assert (HL : (exists cl, rep (o_cl l0) cl) /\ (exists cd, rep (o_cd l0) cd) /\ (exists W, rep (o_W l0) W /\ W <> 0) /\ rep (o_a l0) (k / (1 + k))).
  { unfold loads in EL. cbn [sc s_Vx s_Vy neq ofR fl_arith] in EL.
    assert (E1 : feq (Fin Vx) (Fin 0) = false) by (cbn; apply reqb_false; lra).
    assert (E2 : feq (Fin Vy) (Fin 0) = false) by (cbn; apply reqb_false; lra).
    rewrite E1, E2 in EL. cbn [negb andb] in EL. apply bind_ok in EL. destruct EL as ((((a & ap) & cl) & cd) & E & EL).
    apply bind_ok in E. destruct E as (((((fz & a') & ap') & cl') & cd') & E & E3). apply ok_inj in E3. injection E3; intros; subst a' ap' cl' cd'.
    unfold runBEM in E. change (rt_iterRe rt) with 1%nat in E. cbv iota in E. apply ok_inj in E. cbn [bem_loop] in E.
    unfold bem_pass in E. unfold relativeWind in E. cbv beta iota zeta in E.
    change (s_theta sc) with (Fin 0) in E. change (rt_pitch rt) with (Fin 0) in E. cbn [nsub nadd fl_arith] in E. rewrite w_alpha in E.
    change (s_af sc) with sq_af in E. unfold sq_af in E. cbn [fval] in E.
    destruct (ind_transfer no_loss B r chord Rhub Rtip v (sq_cl v 0) (sq_cd v 0) Vx Vy (sin v * (1 + k) - cos v * (Vx / Vy)) (k / (1 + k)) 0) as (f' & x' & xp' & E' & _ & Ra & Rap).
    - apply Hin; assumption.
    - lra.
    - lra.
    - lra.
    - rewrite sq_loading by (apply sin_gt_0; lra). fold k. lra.
    - intros _. rewrite sq_loading_t by (try apply sin_gt_0; lra). lra.
    - apply sq_ind; [apply Hin; assumption|lra..].
    - change (s_r sc) with (Fin r) in E. change (s_chord sc) with (Fin chord) in E. change (s_Vx sc) with (Fin Vx) in E.
      change (s_Vy sc) with (Fin Vy) in E. change (rt_Rhub rt) with (Fin Rhub) in E. change (rt_Rtip rt) with (Fin Rtip) in E.
      change (rt_opts rt) with no_loss in E. change (rt_B rt) with B in E. rewrite E' in E.
      injection E; intros; subst cd cl ap a fz.
      unfold relativeWind in EL. cbv beta iota zeta in EL. apply ok_inj in EL. rewrite <- EL. cbn [o_cl o_cd o_W o_a o_ap].
      split; [eexists; apply rep_Fin|]. split; [eexists; apply rep_Fin|]. split; [|assumption].
      cbn [nmul ndiv nsub nadd nopp nabs nsqrt nle nlt ofR fl_arith].
      assert (KK : 0 <= k / (1 + k) < 1).
      { split; [apply Rmult_le_pos; [lra|left; apply Rinv_0_lt_compat; lra]|]. apply (Rmult_lt_reg_r (1 + k)); [lra|]. unfold Rdiv. rewrite Rmult_assoc, Rinv_l by lra. lra. }
      assert (N : forall x y, rep x y -> Rabs y <= 1 -> flt (Fin 10) (fabs x) = false).
      { intros x y Hx Hy. rewrite (rep_lt _ _ _ _ (rep_Fin 10) (rep_abs _ _ Hx)). apply rltb_false. lra. }
      rewrite (N _ _ Ra), (N _ _ Rap) by (try rewrite Rabs_R0; try rewrite Rabs_right; lra).
      exists (sqrt (Vx * (1 - k / (1 + k)) * (Vx * (1 - k / (1 + k))) + Vy * (1 + 0) * (Vy * (1 + 0)))). split.
      + apply rep_sqrt; [reps|]. pose proof (Rle_0_sqr (Vx * (1 - k / (1 + k)))). pose proof (Rle_0_sqr (Vy * (1 + 0))). unfold Rsqr in *. lra.
      + apply Rgt_not_eq. apply sqrt_lt_R0. pose proof (Rle_0_sqr (Vx * (1 - k / (1 + k)))). unfold Rsqr in *. nra. }
  destruct HL as ((cl & H1) & (cd & H2) & (W & H3 & H3') & H4).
  destruct (loads_resolve rt v true sc l0 0 0 chord rho cl cd _ (rep_Fin 0) (rep_Fin 0) (rep_Fin chord) (rep_Fin rho) EL H1 H2 H3)
    as [EZ|(_ & _ & _ & _ & RN & RT)].
  - exfalso. subst l0. apply H3'. exact (rep_zero_val _ H3).
  - unfold nan_guard. rewrite (rep_isnan _ _ RN). exists l0. split; [reflexivity|exact H4].
Qed.

(** ** The two rotors *)
Definition coned_args : args := mkArgs [1; 2] [PI; PI] [0; 0] [sq_af; sq_af] (1 / 2) 3 2 1 1 60 0 0 0 80 8 None 0 None 0 no_loss 1.
Definition curved_args : args :=
  mkArgs [1 / 2; 1] [PI; PI] [0; 0] [sq_af; sq_af] (1 / 4) (3 / 2) 2 1 1 0 0 0 0 80 8 (Some [- (sqrt 3 / 2); - sqrt 3]) (- (3 * sqrt 3 / 2)) None 0 no_loss 1.
Definition coned : blade :=
  mkBlade [1; 2] [PI; PI] [Fin 0; Fin 0] [sq_af; sq_af] (1 / 2) 3 2 1 1 (radians 60) 0 0 0 80 no_loss 1 [0; 0] 0 [0; 0] 0 (3 * cos (radians 60) + 0 * sin (radians 60)) 1 false [] [] [] 0.
Definition curved (Rhub : R) : blade :=
  mkBlade [1 / 2; 1] [PI; PI] [Fin 0; Fin 0] [sq_af; sq_af] Rhub (3 / 2) 2 1 1 0 0 0 0 80 no_loss 1 [- (sqrt 3 / 2); - sqrt 3] (- (3 * sqrt 3 / 2)) [0; 0] 0 (3 / 2) 1 false [] [] [] 0.

Lemma sqrt3 : 1 < sqrt 3 /\ sqrt 3 * sqrt 3 = 3.
Proof.
  split; [|apply sqrt_sqrt; lra]. rewrite <- sqrt_1 at 1. apply sqrt_lt_1; lra.
Qed.
Lemma cos60 : cos (radians 60) = 1 / 2.
Proof. replace (radians 60) with (PI / 3) by (unfold radians; field). apply cos_PI3. Qed.
Lemma sin60 : sin (radians 60) = sqrt 3 / 2.
Proof. replace (radians 60) with (PI / 3) by (unfold radians; field). apply sin_PI3. Qed.

Lemma coned_construct : construct coned_args = Ok coned.
Proof.
  unfold construct. cbn [g_r coned_args length Nat.ltb Nat.leb g_precurve g_presweep map curve_error tip_error Nat.eqb andb negb].
  cbn [coned_args g_chord g_theta g_af g_Rhub g_Rtip g_B g_rho g_mu g_precone g_tilt g_yaw g_shearExp g_hubHt g_nSector g_precurveTip
       g_presweepTip g_opts g_iterRe hd last map].
  rewrite !radians_0.
  pose proof (interp_zeros coned_args d_increasing ltac:(simpl; lia) (nd_tip (r_nd [1; 2]))) as Z.
  cbn [g_r coned_args map] in Z. rewrite Z.
  replace (reqb (1 / 2) 1) with false by (symmetry; apply reqb_false; lra).
  replace (reqb 3 2) with false by (symmetry; apply reqb_false; lra).
  replace (reqb 0 0) with true by (symmetry; apply reqb_true; reflexivity).
  cbn [andb set_last removelast app Nat.max]. reflexivity.
Qed.

Lemma curved_increasing : increasing (g_r curved_args).
Proof. cbn [g_r curved_args]. intros [|[|i]] [|[|j]] Hij; simpl in *; lra || lia. Qed.

Lemma curved_construct : construct curved_args = Ok (curved (1 / 4)).
Proof.
  unfold construct. cbn [g_r curved_args length Nat.ltb Nat.leb g_precurve g_presweep map curve_error tip_error Nat.eqb andb negb].
  cbn [curved_args g_chord g_theta g_af g_Rhub g_Rtip g_B g_rho g_mu g_precone g_tilt g_yaw g_shearExp g_hubHt g_nSector g_precurveTip
       g_presweepTip g_opts g_iterRe hd last map].
  rewrite !radians_0, cos_0, sin_0.
  pose proof (interp_zeros curved_args curved_increasing ltac:(simpl; lia) (nd_tip (r_nd [1 / 2; 1]))) as Z.
  cbn [g_r curved_args map] in Z. rewrite Z. destruct sqrt3 as [S _].
  replace (reqb (1 / 4) (1 / 2)) with false by (symmetry; apply reqb_false; lra).
  replace (reqb (3 / 2) 1) with false by (symmetry; apply reqb_false; lra).
  replace (reqb (- (3 * sqrt 3 / 2)) (- sqrt 3)) with false by (symmetry; apply reqb_false; lra).
  replace (reqb 0 0) with true by (symmetry; apply reqb_true; reflexivity).
  cbn [andb set_last removelast app Nat.max]. unfold curved. replace (3 / 2 * 1 + - (3 * sqrt 3 / 2) * 0) with (3 / 2) by ring. reflexivity.
Qed.

Lemma same_blade Rhub : same_stations coned (curved Rhub) /\ same_site coned (curved Rhub) /\ same_sections coned (curved Rhub) /\ tip_place (curved Rhub) = tip_place coned.
Proof.
  split; [|split; [|split]].
  - unfold same_stations. cbn [coned curved b_r length]. split; [lia|]. do 3 (split; [reflexivity|]). intros i Hi.
    unfold station_place. rewrite !station_az_coords, !radians_degrees. cbn [coned curved b_precone b_r b_precurve b_presweep]. rewrite cos60, sin60, cos_0, sin_0.
    destruct i as [|[|i]]; [| |lia]; unfold aget; cbn [nth]; repeat apply (f_equal2 pair); field.
  - unfold same_site. repeat split.
  - unfold same_sections. repeat split.
  - unfold tip_place. rewrite !station_az_coords, !radians_degrees. cbn [coned curved b_precone b_Rtip b_precurveTip b_presweepTip]. rewrite cos60, sin60, cos_0, sin_0.
    repeat apply (f_equal2 pair); field.
Qed.
Lemma same_root : c3 (root_place (curved (1 / 4))) = c3 (root_place coned).
Proof.
  unfold root_place. rewrite !station_az_coords, !radians_degrees. cbn [coned curved b_precone b_Rhub]. rewrite cos60, sin60, cos_0, sin_0. unfold c3. cbn [fst snd]. field.
Qed.

Lemma coned_wind az i : (i < 2)%nat -> let V := wind coned 10 (300 / PI) az in fst V i = 5 /\ snd V i = 5 * (INR i + 1).
Proof.
  intros Hi. unfold wind. cbn [coned b_r b_precurve b_presweep b_precone b_yaw b_tilt b_hubHt b_shearExp length]. unfold windComponents.
  destruct (defineCurvature 2 (aget [1; 2]) (aget [0; 0]) (aget [0; 0]) (radians 60)) as [[[[x y] z] cone] s] eqn:EC. cbv zeta. cbn [fst snd].
  destruct (straight_blade 2 (aget [1; 2]) (aget [0; 0]) (aget [0; 0]) 60 x y z cone s (le_n 2) ltac:(lra)
    ltac:(intros [|j] Hj; [unfold aget; simpl; lra|lia]) ltac:(intros [|[|j]] Hj; reflexivity || lia) ltac:(intros [|[|j]] Hj; reflexivity || lia) EC i Hi) as (Hc & _ & Hz & _ & Hy).
  rewrite Hy, Hz, Hc, cos60, cos_0, !sin_0. assert (P : forall u, rpow u 0 = 1) by (intros u; unfold rpow; rewrite (proj2 (reqb_true 0 0) eq_refl); reflexivity). rewrite !P.
  replace (300 / PI * PI / 30) with 10 by (field; apply PI_neq0).
  replace (aget [1; 2] i) with (INR i + 1) by (destruct i as [|[|i]]; [unfold aget; simpl; ring|unfold aget; simpl; ring|lia]).
  split; field.
Qed.

Lemma coning_refuted npi bq : 3 < npi < PI -> root_inside bq -> accepts_sign_change bq ->
  exists l0 l1 l0' l1', section_loads npi bq coned 10 (300 / PI) 0 0 = Ok [l0; l1] /\ section_loads npi bq (curved (1 / 4)) 10 (300 / PI) 0 0 = Ok [l0'; l1'] /\
    rep (o_a l0) (1 / 5) /\ rep (o_a l0') (1 / 3) /\ rep (o_a l1) (1 / 9) /\ rep (o_a l1') (1 / 5).
Proof.
  intros Hn Hb1 Hb2. pose proof PI_RGT_0 as HP.
  assert (HO : reqb (300 / PI) 0 = false) by (apply reqb_false; assert (0 < 300 / PI) by (apply Rdiv_lt_0_compat; lra); lra).
  destruct (same_blade (1 / 4)) as (A1 & A2 & _).
  set (V := wind coned 10 (300 / PI) (radians 0)). set (V' := wind (curved (1 / 4)) 10 (300 / PI) (radians 0)).
  assert (HV : forall i, (i < 2)%nat -> fst V i = 5 /\ snd V i = 5 * (INR i + 1) /\ fst V' i = 5 /\ snd V' i = 5 * (INR i + 1)).
  { intros i Hi. destruct (coned_wind (radians 0) i Hi) as [H1 H2]. destruct (same_wind coned (curved (1 / 4)) 10 (300 / PI) (radians 0) i A2 A1 Hi) as [H3 H4]. unfold V, V'. rewrite H3, H4. auto. }
  assert (SOL : forall r, r <> 0 -> solidity 2 PI r = 1 / r) by (intros r Hr; unfold solidity; simpl INR; field; lra).
  assert (Q : forall i, (i < 2)%nat -> 5 / (5 * (INR i + 1)) >= 1 / 1000).
  { intros [|[|i]] Hi; [simpl; lra|simpl; lra|lia]. }
  assert (ST : forall b h t r i (V : arr * arr), b = coned /\ h = 1 / 2 /\ t = 3 /\ r = INR i + 1 \/ b = curved (1 / 4) /\ h = 1 / 4 /\ t = 3 / 2 /\ r = (INR i + 1) / 2 ->
     (i < 2)%nat -> fst V i = 5 -> snd V i = 5 * (INR i + 1) -> exists l, station_i npi bq b (radians 0) (300 / PI) V i = Ok (Fin 0, l) /\ rep (o_a l) (1 / r / 4 / (1 + 1 / r / 4))).
  { intros b h t r i W HB Hi W1 W2. assert (HI : 0 <= INR i <= 1) by (destruct i as [|[|i]]; [simpl; lra|simpl; lra|lia]).
    assert (R0 : 1 / 2 <= r) by (destruct HB as [(_ & _ & _ & ->)|(_ & _ & _ & ->)]; lra).
    assert (R1 : 0 <= 1 / r <= 2).
    { split; [unfold Rdiv; rewrite Rmult_1_l; left; apply Rinv_0_lt_compat; lra|]. apply (Rmult_le_reg_r r); [lra|]. unfold Rdiv. rewrite Rmult_1_l, Rinv_l by lra. lra. }
    destruct (sq_station npi bq 2 r PI (fst W i) (snd W i) h t 1 1) as (l & E & Ra); try assumption; try lia; try (rewrite ?W1, ?W2; first [lra|apply Q; exact Hi]).
    - rewrite SOL by lra. exact R1.
    - rewrite SOL in Ra by lra. exists l. split; [|exact Ra]. unfold station_i. rewrite HO. cbn [negb].
      replace (rotor_of b (radians 0)) with (mkRotor (Fin h) (Fin t) 2 (Fin 1) (Fin 1) no_loss 1 (Fin 0))
        by (destruct HB as [(-> & -> & -> & _)|(-> & -> & -> & _)]; unfold rotor_of; cbn [coned curved b_Rhub b_Rtip b_B b_rho b_mu b_opts b_iterRe]; rewrite radians_0; reflexivity).
      replace (pyget (b_r b) i) with (Ok r) by (destruct HB as [(-> & _ & _ & ->)|(-> & _ & _ & ->)]; destruct i as [|[|i]]; try lia; unfold pyget; cbn; f_equal; field).
      replace (pyget (b_chord b) i) with (Ok PI) by (destruct HB as [(-> & _)|(-> & _)]; destruct i as [|[|i]]; try lia; reflexivity).
      replace (pyget (b_af b) i) with (Ok sq_af) by (destruct HB as [(-> & _)|(-> & _)]; destruct i as [|[|i]]; try lia; reflexivity).
      replace (b_inverse b) with false by (destruct HB as [(-> & _)|(-> & _)]; reflexivity).
      replace (pyget (b_theta b) i) with (Ok (Fin 0)) by (destruct HB as [(-> & _)|(-> & _)]; destruct i as [|[|i]]; try lia; reflexivity).
      cbn [bind]. rewrite E. reflexivity. }
  destruct (HV 0%nat ltac:(lia)) as (V1 & V2 & V3 & V4). destruct (HV 1%nat ltac:(lia)) as (V5 & V6 & V7 & V8).
  destruct (ST coned (1 / 2) 3 _ 0%nat V (or_introl (conj eq_refl (conj eq_refl (conj eq_refl eq_refl)))) ltac:(lia) V1 V2) as (l0 & E0 & R0).
  destruct (ST coned (1 / 2) 3 _ 1%nat V (or_introl (conj eq_refl (conj eq_refl (conj eq_refl eq_refl)))) ltac:(lia) V5 V6) as (l1 & E1 & R1).
  destruct (ST (curved (1 / 4)) (1 / 4) (3 / 2) _ 0%nat V' (or_intror (conj eq_refl (conj eq_refl (conj eq_refl eq_refl)))) ltac:(lia) V3 V4) as (l2 & E2 & R2).
  destruct (ST (curved (1 / 4)) (1 / 4) (3 / 2) _ 1%nat V' (or_intror (conj eq_refl (conj eq_refl (conj eq_refl eq_refl)))) ltac:(lia) V7 V8) as (l3 & E3 & R3).
  exists l0, l1, l2, l3. unfold section_loads, distributedAeroLoads.
  change (shapes_ok coned) with true. change (shapes_ok (curved (1 / 4))) with true. cbn [negb]. cbv zeta.
  change (seq 0 (length (b_r coned))) with [0%nat; 1%nat]. change (seq 0 (length (b_r (curved (1 / 4))))) with [0%nat; 1%nat]. fold V V'.
  cbn [mapM]. rewrite E0, E1, E2, E3. split; [reflexivity|]. split; [reflexivity|].
  simpl INR in R0, R1, R2, R3.
  assert (G : forall x a c, rep x a -> a = c -> rep x c) by (intros; subst; assumption).
  split; [eapply G; [exact R0|field]|]. split; [eapply G; [exact R2|field]|]. split; [eapply G; [exact R1|field]|eapply G; [exact R3|field]].
Qed.

Lemma coning_claim_refuted npi bq : 3 < npi < PI -> root_inside bq -> accepts_sign_change bq -> ~ coning_is_precurve npi bq.
Proof.
  intros Hn Hb1 Hb2 H. destruct (coning_refuted npi bq Hn Hb1 Hb2) as (l0 & l1 & l0' & l1' & E & E' & R & R' & _). destruct (same_blade (1 / 4)) as (A1 & A2 & A3 & A4).
  specialize (H coned_args curved_args coned (curved (1 / 4)) 10 (300 / PI) 0 0 coned_construct curved_construct eq_refl A1 A2 A3 same_root A4).
  rewrite E, E' in H. apply ok_inj in H. injection H; intros _ ->. pose proof (rep_fun _ _ _ R R'). lra.
Qed.

Lemma totals_claim_refuted : ~ coning_is_precurve_totals.
Proof.
  intros H. destruct (H coned_args coned coned_construct) as (h & G). destruct (same_blade h) as (A1 & _ & _ & A4).
  specialize (G (curved h) eq_refl eq_refl A1 A4 [] [1; 0]). unfold blade_force, thrustTorque in G. unfold defineCurvature in G. cbv zeta in G.
  apply (f_equal c2) in G. unfold c2 in G. cbn [fst snd] in G.
  assert (T : forall s, trapz (2 + 1) (pad 2 0 (aget [1; 0]) 0) s = 1 / 2 * (s 2%nat - s 0%nat)) by (intros s; cbn; unfold pad, aget; cbn; field).
  change (length (b_r (curved h))) with 2%nat in G. change (length (b_r coned)) with 2%nat in G. rewrite !T in G. clear T.
  cbn [curv_s] in G. unfold pad, aget in G. cbn [Nat.eqb Nat.add Nat.sub nth b_r b_precurve b_presweep b_Rhub coned curved] in G.
  destruct sqrt3 as [S S2].
  assert (E1 : (- sqrt 3 - - (sqrt 3 / 2)) ^ 2 + (0 - 0) ^ 2 + (1 - 1 / 2) ^ 2 = 1 * 1) by (replace ((- sqrt 3 - - (sqrt 3 / 2)) ^ 2 + (0 - 0) ^ 2 + (1 - 1 / 2) ^ 2) with (sqrt 3 * sqrt 3 / 4 + 1 / 4) by field; rewrite S2; field).
  assert (E2 : (0 - 0) ^ 2 + (0 - 0) ^ 2 + (2 - 1) ^ 2 = 1 * 1) by ring.
  assert (E3 : (0 - 0) ^ 2 + (0 - 0) ^ 2 + (1 - 1 / 2) ^ 2 = (1 / 2) * (1 / 2)) by field.
  rewrite E1, E2, E3 in G. rewrite !sqrt_square in G by lra.
  assert (L : 1 / 2 < sqrt ((- (sqrt 3 / 2) - 0) ^ 2 + (0 - 0) ^ 2 + (1 / 2 - h) ^ 2)).
  { rewrite <- (sqrt_square (1 / 2)) at 1 by lra. assert (E4 : (- (sqrt 3 / 2) - 0) ^ 2 = 3 / 4) by (replace ((- (sqrt 3 / 2) - 0) ^ 2) with (sqrt 3 * sqrt 3 / 4) by field; rewrite S2; reflexivity).
    rewrite E4. pose proof (pow2_ge_0 (1 / 2 - h)). apply sqrt_lt_1; lra. }
  lra.
Qed.
