(** Calls of CCBladeTwist that return, and counterexamples (C57, C58, C74-C77). *)
From Coq Require Import Reals Bool Arith List Lra Lia.
From Verif Require Import Prelim Num Bem InterpSpec BemDiff Blade BladeSpec FlProofs StationProofs StationWitness StationLoads BladeProofs SectorProofs
  ConstructProofs SectorWitness BladeDiff BladeDiffSpec BladeDvProofs BladeDvExample Component ComponentSpec TwistProofs.
Import ListNotations.
Open Scope R_scope.

(** ** Calls return when the root finder raises nothing but ValueError *)
Definition only_value_error (bq : rootfinder fl) : Prop := forall f a b e, bq f a b = Raise e -> e = ValueError.

Definition well_formed (b : blade) : Prop :=
  shapes_ok b = true /\ length (b_chord b) = length (b_r b) /\ length (b_af b) = length (b_r b) /\ b_iterRe b = 1%nat /\
  length (b_theta b) = length (b_r b) /\
  (b_inverse b = true -> length (b_cl b) = length (b_r b) /\ length (b_cd b) = length (b_r b) /\ length (b_alpha b) = length (b_r b)).

Section Tame.
Variable npi : R.
Variable bq : rootfinder fl.
Hypothesis Hbq : only_value_error bq.

Lemma tame_solve f : exists phi, solve npi bq f = Ok phi.
Proof.
  unfold solve. destruct (bracket _ _) as [lo hi]. destruct (bq f lo hi) as [x|e] eqn:E; [eauto|].
  rewrite (Hbq _ _ _ _ E). eauto.
Qed.

Lemma pyget_ok {X} (l : list X) i n : length l = n -> (i < n)%nat -> exists x, pyget l i = Ok x.
Proof.
  intros H1 H2. unfold pyget. destruct (nth_error l i) eqn:E; [eauto|]. apply nth_error_None in E. lia.
Qed.

Lemma tame_station b p Om V i : well_formed b -> Om <> 0 -> (i < length (b_r b))%nat -> exists o, station_i npi bq b p Om V i = Ok o.
Proof.
  intros (_ & H1 & H2 & H3 & H4 & H5) HO Hi. unfold station_i.
  replace (reqb Om 0) with false by (symmetry; apply reqb_false; exact HO). cbn [negb]. cbv zeta.
  destruct (pyget_ok (b_r b) i _ eq_refl Hi) as (r & ->). destruct (pyget_ok _ _ _ H1 Hi) as (c & ->). destruct (pyget_ok _ _ _ H2 Hi) as (af & ->).
  cbn [bind]. destruct (b_inverse b).
  - destruct (H5 eq_refl) as (K1 & K2 & K3). destruct (pyget_ok _ _ _ K1 Hi) as (cl & ->). destruct (pyget_ok _ _ _ K2 Hi) as (cd & ->).
    destruct (pyget_ok _ _ _ K3 Hi) as (al & ->). cbn [bind]. unfold solve_station_inverse. cbn [rotor_of rt_iterRe]. rewrite H3.
    match goal with |- context [solve npi bq ?f] => destruct (tame_solve f) as (phi & ->) end. cbn [bind]. cbv zeta.
    match goal with |- context [loads ?rt phi true ?s] => destruct (loads_ok rt phi true s 0 H3) as (l0 & ->) end.
    cbn [bind]. destruct (nan_guard_ok l0) as (l & ->). cbn [bind]. eauto.
  - destruct (pyget_ok _ _ _ H4 Hi) as (th & ->). cbn [bind]. unfold solve_station. cbn [rotor_of rt_iterRe]. rewrite H3.
    match goal with |- context [solve npi bq ?f] => destruct (tame_solve f) as (phi & ->) end. cbn [bind]. cbv zeta.
    match goal with |- context [loads ?rt phi true ?s] => destruct (loads_ok rt phi true s 0 H3) as (l0 & ->) end.
    cbn [bind]. destruct (nan_guard_ok l0) as (l & ->). cbn [bind]. eauto.
Qed.

Lemma tame_dal b U Om p az : well_formed b -> Om <> 0 ->
  exists b' ls, distributedAeroLoads npi bq b U Om p az = Ok (b', ls) /\ well_formed b' /\ b_nSector b' = b_nSector b.
Proof.
  intros HW HO. pose proof HW as (S0 & H1 & H2 & H3 & H4 & H5). unfold distributedAeroLoads. rewrite S0. cbn [negb]. cbv zeta.
  destruct (mapM_ok (station_i npi bq b (radians p) Om (wind b U Om (radians az))) (seq 0 (length (b_r b)))) as (ys & E).
  { intros i Hi. apply in_seq in Hi. apply tame_station; [exact HW|exact HO|lia]. }
  pose proof (mapM_length _ _ _ E) as L. rewrite seq_length in L.
  rewrite E. cbn [bind]. do 2 eexists. split; [reflexivity|]. split; [|reflexivity].
  split; [exact S0|]. split; [exact H1|]. split; [exact H2|]. split; [exact H3|]. split; [|exact H5].
  cbn [set_call b_theta b_r]. destruct (b_inverse b); [rewrite map_length; exact L|exact H4].
Qed.

Lemma tame_azimuths azs : forall b U Om p acc W, well_formed b -> Om <> 0 -> azs <> [] \/ W <> None ->
  exists b' t w, azimuth_loop npi bq azs b U Om p acc W = Ok (b', t, Some w) /\ well_formed b'.
Proof.
  induction azs as [|az azs IH]; intros b U Om p acc W HW HO HN; cbn [azimuth_loop].
  - destruct HN as [X|X]; [congruence|]. destruct W as [w|]; [|congruence]. eauto.
  - destruct (tame_dal b U Om p (degrees az) HW HO) as (b1 & ls & -> & HW1 & _). cbn [bind].
    apply IH; [exact HW1|exact HO|right; discriminate].
Qed.

Lemma tame_evaluate b U Om p : well_formed b -> Om <> 0 -> (1 <= b_nSector b)%nat ->
  exists b' y w, evaluate npi bq b [(U, Om, p)] = Ok (b', [y], w) /\ well_formed b'.
Proof.
  intros HW HO HN. unfold evaluate. cbn [condition_loop].
  destruct (tame_azimuths (azimuths (b_nSector b)) b U Om p (Some tot0) None HW HO) as (b' & t & w & -> & HW').
  { left. unfold azimuths. destruct (b_nSector b); [lia|discriminate]. }
  cbn [bind combine map]. do 3 eexists. split; [reflexivity|exact HW'].
Qed.

(** ** The two-station rotor of SectorWitness.v with other airfoils *)
Definition w_args (af : airfoil fl) : args :=
  mkArgs [1; 2] [1; 1] [0; 0] [af; af] (1 / 2) 3 2 1 1 0 0 0 0 80 8 None 0 None 0 off 1.
Definition w_blade (af : airfoil fl) : blade :=
  mkBlade [1; 2] [1; 1] [Fin 0; Fin 0] [af; af] (1 / 2) 3 2 1 1 0 0 0 0 80 off 1 [0; 0] 0 [0; 0] 0 3 1 false [] [] [] 0.
Lemma w_construct af : construct (w_args af) = Ok (w_blade af).
Proof.
  unfold construct. cbn [g_r w_args length Nat.ltb Nat.leb g_precurve g_presweep map curve_error tip_error Nat.eqb andb negb].
  cbn [w_args g_chord g_theta g_af g_Rhub g_Rtip g_B g_rho g_mu g_precone g_tilt g_yaw g_shearExp g_hubHt g_nSector g_precurveTip
       g_presweepTip g_opts g_iterRe hd last map].
  rewrite !radians_0, cos_0, sin_0.
  pose proof (interp_zeros d_args d_increasing ltac:(simpl; lia) (nd_tip (r_nd [1; 2]))) as Z.
  cbn [g_r d_args map] in Z. rewrite Z.
  replace (reqb (1 / 2) 1) with false by (symmetry; apply reqb_false; lra).
  replace (reqb 3 2) with false by (symmetry; apply reqb_false; lra).
  replace (reqb 0 0) with true by (symmetry; apply reqb_true; reflexivity).
  cbn [andb set_last removelast app]. unfold w_blade. replace (3 * 1 + 0 * 0) with 3 by ring. reflexivity.
Qed.

(** Tip-speed ratio 2 at wind speed 1; [tin]: theta_in, [aoa]: aoa_op, [thick]: rthick. *)
Definition w_in (af : airfoil fl) (tin aoa thick : list R) : twist_in := mkTwistIn (w_args af) 1 2 0 tin aoa thick [0; 1].
Lemma w_Omega af tin aoa thick : twist_Omega (w_in af tin aoa thick) = 30 / PI.
Proof. unfold twist_Omega, w_in, w_args. cbn. field. apply PI_neq0. Qed.
Lemma w_Omega_pos : 30 / PI <> 0.
Proof. pose proof PI_RGT_0. apply Rgt_not_eq, Rdiv_lt_0_compat; lra. Qed.

Lemma finish_ok i b prev : well_formed b -> twist_Omega i <> 0 -> (1 <= b_nSector b)%nat -> exists out, twist_finish npi bq i b prev = Ok out.
Proof.
  intros HW HO HN. unfold twist_finish. destruct (tame_dal b (wi_Uhub i) (twist_Omega i) (wi_pitch i) 0 HW HO) as (b1 & ls & -> & HW1 & Hs). cbn [bind].
  destruct (tame_evaluate b1 (wi_Uhub i) (twist_Omega i) (wi_pitch i) HW1 HO ltac:(rewrite Hs; exact HN)) as (b2 & y & w & -> & _). cbn [bind]. eauto.
Qed.

Definition forward : twist_opts := mkTwistOpts false false false 0.
Definition inverse (inn : bool) : twist_opts := mkTwistOpts true false inn 0.

Lemma forward_ok alpha1 smooth af tin aoa thick prev : length tin = 2%nat ->
  exists out, twist_compute npi bq alpha1 smooth forward (w_in af tin aoa thick) prev = Ok out.
Proof.
  intros HL. unfold twist_compute, twist_design, forward. cbn [wo_inverse w_in wi_args wi_theta_in]. rewrite w_construct. cbn [bind].
  apply finish_ok.
  - unfold well_formed, set_inverse, w_blade. cbn [b_r b_chord b_theta b_af b_iterRe b_inverse b_precurve b_presweep]. rewrite map_length.
    split; [reflexivity|]. split; [reflexivity|]. split; [reflexivity|]. split; [reflexivity|]. split; [exact HL|]. discriminate.
  - fold (w_in af tin aoa thick). rewrite w_Omega. apply w_Omega_pos.
  - cbn. lia.
Qed.

(** Inverse design for an airfoil with finite coefficients cl(alpha, Re), cd(alpha, Re). *)
Section Inv.
Variable alpha1 : nat -> res R.
Variables clf cdf : R -> R -> R.
Let af : airfoil fl := fun al Re => match al, Re with Fin x, Fin y => (Fin (clf x y), Fin (cdf x y)) | _, _ => (Fin 0, Fin 0) end.
Variables a0 a1 : R.
Hypothesis A0 : 1 / 10000 <= Rabs (a0 - PI). Hypothesis A1 : 1 / 10000 <= Rabs (a1 - PI).

Lemma w_target inn thick k : (k < 2)%nat -> target alpha1 (inverse inn) (w_in af [0; 0] [a0; a1] thick) k =
  let al := nth k [a0; a1] 0 in let Re := 30 / PI * INR (S k) in Ok (al, clf al Re, cdf al Re).
Proof.
  intros Hk. unfold target. assert (RE : twist_Re (w_in af [0; 0] [a0; a1] thick) k = 30 / PI * INR (S k)).
  { unfold twist_Re. rewrite w_Omega. destruct k as [|[|k]]; [| |lia]; cbn; field; apply PI_neq0. }
  rewrite RE. destruct k as [|[|k]]; [| |lia]; cbn [w_in wi_aoa_op wi_args w_args g_af pyget nth_error bind nth].
  - replace (rltb (Rabs (a0 - PI)) (1 / 10000)) with false by (symmetry; apply rltb_false; exact A0). cbn [bind]. reflexivity.
  - replace (rltb (Rabs (a1 - PI)) (1 / 10000)) with false by (symmetry; apply rltb_false; exact A1). cbn [bind]. reflexivity.
Qed.

(** [t0] is the relative thickness of the root station: if at least 95, its angle is overwritten. *)
Lemma inverse_ok inn t0 : exists b, inverse_design npi bq alpha1 (inverse inn) (w_in af [0; 0] [a0; a1] [t0; 0]) = Ok b /\ well_formed b /\
  b_nSector b = 1%nat /\ b_alpha b = [if rltb t0 95 then a0 else a1; a1] /\
  b_cl b = [clf a0 (30 / PI * INR 1); clf a1 (30 / PI * INR 2)] /\ b_cd b = [cdf a0 (30 / PI * INR 1); cdf a1 (30 / PI * INR 2)].
Proof.
  unfold inverse_design. change (wi_args (w_in af [0; 0] [a0; a1] [t0; 0])) with (w_args af). rewrite w_construct. cbn [bind].
  change (seq 0 (length (g_r (w_args af)))) with [0%nat; 1%nat]. cbn [mapM]. rewrite !w_target by lia. cbv zeta. cbn [bind nth map fst snd].
  change (wi_rthick _) with [t0; 0]. change (wi_Uhub _) with 1. change (wi_pitch _) with 0. rewrite w_Omega. cbn [first_thin].
  replace (rltb 0 95) with true by (symmetry; apply rltb_true; lra).
  assert (FIN : forall alp, length alp = 2%nat ->
    exists b, bind (evaluate npi bq (set_inverse (w_blade af) true (b_theta (w_blade af)) [clf a0 (30 / PI * INR 1); clf a1 (30 / PI * INR 2)]
       [cdf a0 (30 / PI * INR 1); cdf a1 (30 / PI * INR 2)] alp) [(1, 30 / PI, 0)]) (fun out => Ok (fst (fst out))) = Ok b /\ well_formed b /\
     b_nSector b = 1%nat /\ b_alpha b = alp /\ b_cl b = [clf a0 (30 / PI * INR 1); clf a1 (30 / PI * INR 2)] /\
     b_cd b = [cdf a0 (30 / PI * INR 1); cdf a1 (30 / PI * INR 2)]).
  { intros alp HL.
    set (b0 := set_inverse _ _ _ _ _ _).
    assert (HW : well_formed b0).
    { unfold well_formed, b0, set_inverse, w_blade. cbn [b_r b_chord b_theta b_af b_iterRe b_inverse b_precurve b_presweep b_cl b_cd b_alpha].
      split; [reflexivity|]. split; [reflexivity|]. split; [reflexivity|]. split; [reflexivity|]. split; [reflexivity|]. intros _. split; [reflexivity|]. split; [reflexivity|exact HL]. }
    destruct (tame_evaluate b0 1 (30 / PI) 0 HW w_Omega_pos ltac:(cbn; lia)) as (b' & y & w & E & HW'). rewrite E. cbn [bind fst].
    exists b'. split; [reflexivity|]. split; [exact HW'|].
    destruct (evaluate_shape _ _ _ _ _ _ _ E) as [->|(th & q & ->)]; (split; [reflexivity|]; split; [reflexivity|]; split; reflexivity). }
  destruct (rltb t0 95); cbn [bind]; unfold overwrite_root; cbn [pyget nth_error bind repeat app skipn]; apply FIN; reflexivity.
Qed.

Lemma inverse_compute_ok smooth t0 prev : exists out, twist_compute npi bq alpha1 smooth (inverse false) (w_in af [0; 0] [a0; a1] [t0; 0]) prev = Ok out.
Proof.
  unfold twist_compute, twist_design. cbn [wo_inverse wo_flag wo_inn_af inverse]. fold (inverse false).
  destruct (inverse_ok false t0) as (b & -> & HW & HS & _). cbn [bind]. cbv zeta. apply finish_ok.
  - destruct HW as (H1 & H2 & H3 & H4 & H5 & H6). unfold well_formed, set_inverse. cbn [b_r b_chord b_theta b_af b_iterRe b_inverse b_precurve b_presweep b_cl b_cd b_alpha].
    split; [exact H1|]. split; [exact H2|]. split; [exact H3|]. split; [exact H4|]. split; [|discriminate].
    rewrite (proj1 (cap_capped (b_theta b))). exact H5.
  - rewrite w_Omega. apply w_Omega_pos.
  - cbn [b_nSector set_inverse]. rewrite HS. lia.
Qed.
End Inv.
End Tame.

(** ** What inverse design stores *)
Section Design.
Variable npi : R.
Variable bq : rootfinder fl.
Variable alpha1 : nat -> res R.

Lemma first_thin_spec l : forall k0 m, first_thin k0 l = Ok m -> exists j, m = (k0 + j)%nat /\ first_below_95 l j.
Proof.
  induction l as [|t l IH]; intros k0 m H; cbn [first_thin] in H; [discriminate|]. destruct (rltb t 95) eqn:E.
  - apply ok_inj in H. exists 0%nat. split; [lia|]. apply rltb_true in E. split; [exists t; auto|]. intros; lia.
  - apply rltb_false in E. destruct (IH _ _ H) as (j & -> & (u & Hu & Hu2) & Hj). exists (S j). split; [lia|].
    split; [exists u; auto|]. intros [|k] v Hk Hv; [cbn in Hv; injection Hv as <-; lra|]. apply (Hj k); [lia|exact Hv].
Qed.

Lemma twist_Re_value i k : last (g_r (wi_args i)) 0 <> 0 -> g_mu (wi_args i) <> 0 ->
  twist_Re i k = 30 / PI * section_Re (g_rho (wi_args i)) (g_mu (wi_args i)) (aget (g_chord (wi_args i)) k)
                   (swept_speed i (last (g_r (wi_args i)) 0) (aget (g_r (wi_args i)) k)).
Proof. intros H1 H2. unfold twist_Re, twist_Omega, section_Re, swept_speed. field. repeat split; auto using PI_neq0. Qed.

Lemma inverse_targets o i b : last (g_r (wi_args i)) 0 <> 0 -> g_mu (wi_args i) <> 0 -> inverse_design npi bq alpha1 o i = Ok b ->
  exists m al, first_below_95 (wi_rthick i) m /\ (m < length (g_r (wi_args i)))%nat /\
  forall k, (k < length (g_r (wi_args i)))%nat ->
    (exists a, nth_error (wi_aoa_op i) k = Some a /\ (1 / 10000 <= Rabs (a - PI) -> al k = a) /\
       (Rabs (a - PI) < 1 / 10000 -> exists a1, alpha1 k = Ok a1 /\ al k = radians (a1 - degrees (wo_margin o)))) /\
    (exists af, nth_error (g_af (wi_args i)) k = Some af /\
       let Re := 30 / PI * section_Re (g_rho (wi_args i)) (g_mu (wi_args i)) (aget (g_chord (wi_args i)) k)
                   (swept_speed i (last (g_r (wi_args i)) 0) (aget (g_r (wi_args i)) k)) in
       rep (fst (af (Fin (al k)) (Fin Re))) (aget (b_cl b) k) /\ rep (snd (af (Fin (al k)) (Fin Re))) (aget (b_cd b) k)) /\
    aget (b_alpha b) k = al (Nat.max m k).
Proof.
  intros H1 H2 H. unfold inverse_design in H. apply bind_ok in H. destruct H as (b0 & _ & H).
  apply bind_ok in H. destruct H as (tg & EM & H). cbv zeta in H. apply bind_ok in H. destruct H as (m & ET & H).
  apply bind_ok in H. destruct H as (al' & EO & H). apply bind_ok in H. destruct H as (((b1 & ys) & w) & EE & H).
  apply ok_inj in H. cbn [fst] in H. subst b1.
  assert (BB : b_cl b = map (fun t => snd (fst t)) tg /\ b_cd b = map (fun t : R * R * R => snd t) tg /\ b_alpha b = al').
  { destruct (evaluate_shape _ _ _ _ _ _ _ EE) as [->|(th & q & ->)]; cbn; auto. }
  destruct BB as (BC & BD & BA). rewrite BC, BD, BA. clear EE BC BD BA ys w b.
  destruct (first_thin_spec _ _ _ ET) as (j & EJ & HJ). cbn in EJ. subst j. clear ET.
  pose proof (mapM_length _ _ _ EM) as L. rewrite seq_length in L.
  unfold overwrite_root in EO. apply bind_ok in EO. destruct EO as (am & EA & EO). apply ok_inj in EO.
  unfold pyget in EA. destruct (nth_error (map _ tg) m) as [am'|] eqn:EA'; [|discriminate]. apply ok_inj in EA. subst am'.
  assert (Lm : (m < length tg)%nat) by (rewrite <- (map_length (fun t : R * R * R => fst (fst t))); apply nth_error_Some; congruence).
  exists m, (fun k => fst (fst (nth k tg (0, 0, 0)))). split; [exact HJ|]. split; [lia|]. intros k Hk.
  pose proof (mapM_nth _ _ _ 0%nat (0, 0, 0) EM k ltac:(rewrite seq_length; lia)) as T. rewrite seq_nth in T by lia. cbn [Nat.add] in T.
  destruct (nth k tg (0, 0, 0)) as [[al cl] cd] eqn:EK. cbn [fst].
  assert (G : forall (f : R * R * R -> R) d, aget (map f tg) k = f (nth k tg d)).
  { intros f d. unfold aget. rewrite (nth_indep _ 0 (f d)) by (rewrite map_length; lia). apply map_nth. }
  rewrite !(G _ (0, 0, 0)), EK. cbn [fst snd]. unfold target in T. apply bind_ok in T. destruct T as (a & EAO & T). apply bind_ok in T.
  destruct T as (al2 & EAL & T). apply bind_ok in T. destruct T as (af & EAF & T). rewrite twist_Re_value in T by assumption.
  unfold pyget in EAO, EAF. destruct (nth_error (wi_aoa_op i) k) as [a'|]; [|discriminate]. apply ok_inj in EAO. subst a'.
  destruct (nth_error (g_af (wi_args i)) k) as [af'|]; [|discriminate]. apply ok_inj in EAF. subst af'.
  destruct (af (Fin al2) (Fin _)) as [c d] eqn:EAFV. destruct (fval c) as [x|] eqn:F1; [|discriminate]. destruct (fval d) as [y|] eqn:F2; [|discriminate].
  apply ok_inj in T. apply pair_equal_spec in T. destruct T as [T T3]. apply pair_equal_spec in T. destruct T as [-> T2]. subst x y.
  split; [|split].
  - exists a. split; [reflexivity|]. destruct (rltb (Rabs (a - PI)) (1 / 10000)) eqn:EB.
    + apply rltb_true in EB. split; [lra|]. intros _. apply bind_ok in EAL. destruct EAL as (a1 & E1 & EAL). apply ok_inj in EAL.
      exists a1. split; [exact E1|]. rewrite <- EAL. unfold radians, degrees. field. apply PI_neq0.
    + apply rltb_false in EB. split; [|lra]. intros _. apply ok_inj in EAL. symmetry. exact EAL.
  - exists af. split; [reflexivity|]. cbv zeta. rewrite EAFV. cbn [fst snd]. split; assumption.
  - rewrite <- EO. unfold aget. destruct (Nat.lt_ge_cases k m) as [Lk|Lk].
    + rewrite app_nth1 by (rewrite repeat_length; exact Lk). rewrite nth_repeat_lt by exact Lk. rewrite Nat.max_l by lia.
      apply nth_of_error with (d := 0) in EA'. rewrite <- EA'. rewrite (nth_indep _ 0 ((fun t : R * R * R => fst (fst t)) (0, 0, 0))) by (rewrite map_length; lia).
      rewrite (map_nth (fun t : R * R * R => fst (fst t))). reflexivity.
    + rewrite app_nth2 by (rewrite repeat_length; exact Lk). rewrite repeat_length, nth_skipn'. replace (m + (k - m))%nat with k by lia.
      rewrite Nat.max_r by lia. rewrite (nth_indep _ 0 ((fun t : R * R * R => fst (fst t)) (0, 0, 0))) by (rewrite map_length; lia).
      rewrite (map_nth (fun t : R * R * R => fst (fst t))), EK. reflexivity.
Qed.
End Design.

(** ** Counterexamples *)
Lemma PI_dist x : 0 <= x <= 2 -> 1 / 10000 <= Rabs (x - PI).
Proof. intros H. pose proof PI2_1. rewrite Rabs_left1 by lra. assert (2 < PI) by (pose proof PI2_3_2; lra). pose proof PI2_3_2. lra. Qed.

(** C75: an airfoil whose lift coefficient is the Reynolds number. *)
Definition re_lift : airfoil fl := fun al Re => match al, Re with Fin x, Fin y => (Fin y, Fin 0) | _, _ => (Fin 0, Fin 0) end.
Lemma reynolds_witness : forall npi bq alpha1, only_value_error bq -> exists o i b, inverse_design npi bq alpha1 o i = Ok b /\
  let g := wi_args i in let Re := section_Re (g_rho g) (g_mu g) (aget (g_chord g) 0%nat) (swept_speed i (last (g_r g) 0) (aget (g_r g) 0%nat)) in
  1 / 10000 <= Rabs (aget (wi_aoa_op i) 0%nat - PI) /\ ~ rep (fst (nth 0%nat (g_af g) (fun _ _ => (NaN, NaN)) (Fin (aget (wi_aoa_op i) 0%nat)) (Fin Re))) (aget (b_cl b) 0%nat).
Proof.
  intros npi bq alpha1 Hb. exists (inverse false), (w_in re_lift [0; 0] [0; 0] [0; 0]).
  destruct (inverse_ok npi bq Hb alpha1 (fun _ y => y) (fun _ _ => 0) 0 0 ltac:(apply PI_dist; lra) ltac:(apply PI_dist; lra) false 0) as (b & E & _ & _ & _ & H & _).
  exists b. split; [exact E|]. cbv zeta. split; [apply PI_dist; unfold aget; cbn; lra|]. rewrite H.
  unfold section_Re, swept_speed, w_in, w_args, aget. cbn. intros X. injection X; intros Y. pose proof PI_4. pose proof PI_RGT_0.
  assert (30 / PI = 1) by lra. assert (30 = PI) by (replace 30 with (30 / PI * PI) by (field; lra); rewrite H2; ring). lra.
Qed.

(** C77: an airfoil whose lift coefficient is its angle. *)
Definition angle_lift : airfoil fl := fun al Re => match al, Re with Fin x, Fin y => (Fin x, Fin 0) | _, _ => (Fin 0, Fin 0) end.
Lemma root_witness : forall npi bq alpha1, only_value_error bq -> exists o i b, inverse_design npi bq alpha1 o i = Ok b /\
  forall Re, ~ rep (fst (nth 0%nat (g_af (wi_args i)) (fun _ _ => (NaN, NaN)) (Fin (aget (b_alpha b) 0%nat)) (Fin Re))) (aget (b_cl b) 0%nat).
Proof.
  intros npi bq alpha1 Hb. exists (inverse false), (w_in angle_lift [0; 0] [1; 2] [100; 0]).
  destruct (inverse_ok npi bq Hb alpha1 (fun x _ => x) (fun _ _ => 0) 1 2 ltac:(apply PI_dist; lra) ltac:(apply PI_dist; lra) false 100) as (b & E & _ & _ & HA & H & _).
  exists b. split; [exact E|]. intros Re. rewrite H, HA. replace (rltb 100 95) with false by (symmetry; apply rltb_false; lra).
  unfold aget. cbn. intros X. injection X; intros Y. lra.
Qed.

(** C74 and C76: the drag-only rotor at tip-speed ratio 2. *)
Lemma d_forward npi bq alpha1 smooth prev : 3 < npi < PI -> root_inside bq -> accepts_sign_change bq ->
  exists b out y b' w, twist_design npi bq alpha1 smooth forward (w_in drag_af [0; 0] [0; 0] [0; 0]) = Ok b /\
    twist_compute npi bq alpha1 smooth forward (w_in drag_af [0; 0] [0; 0] [0; 0]) prev = Ok out /\
    evaluate npi bq b [(1, 30 / PI, 0)] = Ok (b', [Some y], w) /\ 0 < t_T (y_tot y) /\ wt_PTQM out = prev /\
    rep (nth 0%nat (wt_a out) NaN) 0 /\ rep (nth 0%nat (wt_ap out) NaN) 0 /\ rep (nth 0%nat (wt_W out) NaN) (sqrt 2).
Proof.
  intros Hn H1 H2. exists d_blade.
  assert (ED : twist_design npi bq alpha1 smooth forward (w_in drag_af [0; 0] [0; 0] [0; 0]) = Ok d_blade).
  { unfold twist_design, forward. cbn [wo_inverse w_in wi_args wi_theta_in]. rewrite w_construct. reflexivity. }
  destruct (d_loads npi bq 0 0 Hn H1 H2) as (l0 & l1 & N0 & N1 & T0 & T1 & E & R0 & R1 & Q0 & Q1 & P0 & P1 & Ra & Rap & RW).
  destruct (d_evaluate npi bq 1 0 Hn H1 H2 ltac:(lia)) as (b' & y & w & EE & HT & _). change (with_sectors d_blade 1) with d_blade in EE.
  assert (EW : w = [o_W l0; o_W l1]).
  { pose proof EE as X. unfold evaluate in X. cbn [condition_loop] in X. change (azimuths (b_nSector d_blade)) with [INR 0 * (2 * PI / INR 1)] in X.
    cbn [azimuth_loop] in X. replace (degrees (INR 0 * (2 * PI / INR 1))) with 0 in X by (unfold degrees; cbn; field; apply PI_neq0).
    rewrite E in X. cbn [bind] in X. apply ok_inj in X. apply (f_equal snd) in X. symmetry. exact X. }
  assert (EE2 : exists b2, evaluate npi bq (repitch d_blade (radians 0)) [(1, 30 / PI, 0)] = Ok (b2, [Some y], w)).
  { rewrite radians_0. eexists. exact EE. }
  destruct EE2 as (b2 & EE2).
  unfold twist_compute. rewrite ED. cbn [bind]. unfold twist_finish. rewrite w_Omega. change (wi_Uhub _) with 1. change (wi_pitch _) with 0.
  rewrite E. cbn [bind]. rewrite EE2. cbn [bind nth]. eexists. exists y, b', w. split; [reflexivity|]. split; [reflexivity|].
  split; [exact EE|]. split; [exact HT|]. cbn [wt_PTQM wt_a wt_ap wt_W map]. split; [reflexivity|]. rewrite EW. cbn [nth map].
  split; [exact Ra|]. split; [exact Rap|]. unfold rep in RW |- *. destruct (o_W l0); try discriminate; exact RW.
Qed.
