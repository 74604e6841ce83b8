(** Existence of a solution in the standard bracket (C23). *)
From Coquelicot Require Import Coquelicot.
From Coq Require Import Reals Bool Arith Lia Lra.
From Verif Require Import Prelim Cont Num Bem Blade IndSpec IndProofs FlProofs BladeSpec StationProofs StationLoads.
Open Scope R_scope.

(** ** The residual on the special-value carrier agrees with the real one *)
Lemma fzero_transfer o B (r chord Rhub Rtip phi cl cd Vx Vy : R) (r' chord' Rhub' Rtip' phi' cl' cd' Vx' Vy' : fl) :
  rep r' r -> rep chord' chord -> rep Rhub' Rhub -> rep Rtip' Rtip -> rep phi' phi -> rep cl' cl -> rep cd' cd ->
  rep Vx' Vx -> rep Vy' Vy ->
  inside B r Rhub Rtip phi -> cos phi <> 0 -> Vx <> 0 -> Vy <> 0 ->
  - 1 < loading o B r chord Rhub Rtip phi cl cd ->
  rep (out_fzero (inductionFactors o B r' chord' Rhub' Rtip' phi' cl' cd' Vx' Vy'))
      (out_fzero (inductionFactors o B r chord Rhub Rtip phi cl cd Vx Vy)).
Proof.
  intros Qr Qc Qh Qt Qp Qcl Qcd Qx Qy Hin Hc HVx HVy Hk.
  pose proof (locals_transfer o B r chord Rhub Rtip phi cl cd _ _ _ _ _ _ _ Qr Qc Qh Qt Qp Qcl Qcd Hin Hc) as [Rs Rc RF Rk Rkp].
  pose proof (lossF_unit o _ _ _ _ _ Hin) as HFu.
  pose proof Hin as (HB & (H1 & H2) & H3 & H4).
  assert (Hs : 0 < sin phi) by (apply sin_gt_0; lra).
  destruct (inductionFactors o B r chord Rhub Rtip phi cl cd Vx Vy) as ((fz & a) & ap) eqn:Heq.
  pose proof (a_below_one o B r chord Rhub Rtip phi cl cd Vx Vy fz a ap Hin Heq Hk) as (Ha1 & _).
  rewrite (k_spec o B r chord Rhub Rtip phi cl cd Hin) in Rk.
  rewrite (kp_spec o B r chord Rhub Rtip phi cl cd Hin Hc) in Rkp.
  rewrite l_F_spec in RF by lra.
  rewrite ind_pos, kp_spec in Heq by assumption.
  set (k := loading o B r chord Rhub Rtip phi cl cd) in *.
  set (F := lossF o B r Rhub Rtip phi) in *.
  set (L := bem_locals o B r' chord' Rhub' Rtip' phi' cl' cd') in *.
  pose proof (axial_transfer _ _ _ _ Rk RF HFu ltac:(lra)) as Ra.
  injection Heq; clear Heq; intros Eap Ea Efz. rewrite Ea in Efz, Ra.
  unfold out_fzero, inductionFactors. cbn [fst snd].
  cbn [nmul ndiv nsub nadd nopp nabs nsqrt nle nlt ofR fl_arith R_arith]. fold L.
  rewrite (rep_lt (Fin 0) phi' 0 phi (rep_Fin 0) Qp).
  replace (rltb 0 phi) with true by (symmetry; apply rltb_true; lra).
  assert (Hlam : Vy / Vx <> 0) by nz.
  assert (Rlam : rep (fdiv Vy' Vx') (Vy / Vx)) by (apply rep_div; assumption).
  rewrite <- Efz. apply rep_sub.
  - apply rep_div; [exact Rs|apply rep_sub; [apply rep_Fin|exact Ra]|lra].
  - apply rep_mul; [apply rep_div; [exact Rc|exact Rlam|exact Hlam]|].
    apply rep_sub; [apply rep_Fin|]. destruct (wakerotation o); [exact Rkp|apply rep_Fin].
Qed.

(** ** Continuity along a continuous inflow angle *)
Ltac cont := repeat first [assumption | apply continuous_const | apply continuous_id | apply cR_plus | apply cR_minus
  | apply cR_mult | apply cR_opp | apply cR_pow ].

Lemma cR_sin f (x : R) : continuous f x -> continuous (fun t => sin (f t)) x.
Proof. apply continuous_sin_comp. Qed.
Lemma cR_cos f (x : R) : continuous f x -> continuous (fun t => cos (f t)) x.
Proof. apply continuous_cos_comp. Qed.
Lemma cR_exp f (x : R) : continuous f x -> continuous (fun t => exp (f t)) x.
Proof. apply continuous_exp_comp. Qed.
Lemma cR_sqrt f (x : R) : continuous f x -> continuous (fun t => sqrt (f t)) x.
Proof. apply continuous_sqrt_comp. Qed.

Section Along.
Variables (o : bemopts) (B : nat) (r chord Rhub Rtip : R) (phi cl cd : R -> R) (t : R).
Hypothesis Hin : inside B r Rhub Rtip (phi t).
Hypothesis Cphi : continuous phi t.
Hypothesis Ccl : continuous cl t.
Hypothesis Ccd : continuous cd t.

Lemma sin_phi_pos : 0 < sin (phi t).
Proof. destruct Hin as (_ & _ & _ & H). apply sin_gt_0; lra. Qed.

Lemma prandtl_cont d l : 0 < d -> 0 < l -> continuous (fun t => prandtl B d l (phi t)) t.
Proof.
  intros Hd Hl. pose proof sin_phi_pos as Hs.
  assert (HB : 1 <= INR B) by (change 1 with (INR 1); apply le_INR; apply Hin).
  assert (Hf : 0 < INR B * d / (2 * l * sin (phi t))).
  { apply Rdiv_lt_0_compat; repeat apply Rmult_lt_0_compat; lra. }
  unfold prandtl. apply cR_mult; [apply continuous_const|]. apply cR_acos.
  - apply cR_exp. apply cR_opp. apply cR_div; [apply continuous_const| |nz].
    apply cR_mult; [apply continuous_const|]. apply cR_sin. assumption.
  - pose proof (exp_neg_unit _ Hf). lra.
Qed.

Lemma lossF_cont : continuous (fun t => lossF o B r Rhub Rtip (phi t)) t.
Proof.
  pose proof Hin as (HB & (H1 & H2) & H3 & H4). unfold lossF. apply cR_mult.
  - destruct (tipLoss o); [apply prandtl_cont; lra|apply continuous_const].
  - destruct (hubLoss o); [apply prandtl_cont; lra|apply continuous_const].
Qed.

Lemma loading_cont : continuous (fun t => loading o B r chord Rhub Rtip (phi t) (cl t) (cd t)) t.
Proof.
  pose proof sin_phi_pos as Hs. pose proof (lossF_unit o _ _ _ _ _ Hin) as HF.
  assert (D : 0 < 4 * lossF o B r Rhub Rtip (phi t) * sin (phi t) ^ 2).
  { apply Rmult_lt_0_compat; [lra|apply pow_lt; lra]. }
  unfold loading, coef_n. apply cR_div; [| |lra].
  - apply cR_mult; [apply continuous_const|]. apply cR_plus; [apply cR_mult; [assumption|apply cR_cos; assumption]|].
    destruct (useCd o); [apply cR_mult; [assumption|apply cR_sin; assumption]|apply continuous_const].
  - apply cR_mult; [apply cR_mult; [apply continuous_const|apply lossF_cont]|apply cR_pow, cR_sin; assumption].
Qed.

Lemma loading_t_cont : cos (phi t) <> 0 ->
  continuous (fun t => loading_t o B r chord Rhub Rtip (phi t) (cl t) (cd t)) t.
Proof.
  intros Hc. pose proof sin_phi_pos as Hs. pose proof (lossF_unit o _ _ _ _ _ Hin) as HF.
  unfold loading_t, coef_t. apply cR_div.
  - apply cR_mult; [apply continuous_const|]. apply cR_minus; [apply cR_mult; [assumption|apply cR_sin; assumption]|].
    destruct (useCd o); [apply cR_mult; [assumption|apply cR_cos; assumption]|apply continuous_const].
  - apply cR_mult; [|apply cR_cos; assumption]. apply cR_mult; [|apply cR_sin; assumption].
    apply cR_mult; [apply continuous_const|apply lossF_cont].
  - assert (4 * lossF o B r Rhub Rtip (phi t) * sin (phi t) <> 0) by (assert (0 < 4 * lossF o B r Rhub Rtip (phi t) * sin (phi t)) by (apply Rmult_lt_0_compat; lra); lra).
    apply Rmult_integral_contrapositive_currified; assumption.
Qed.
End Along.

(** Glued form of the axial induction, continuous without case distinction. *)
Definition glued (k F : R) : R :=
  Rmin k (2 / 3) / (1 + Rmin k (2 / 3)) + (1 - 1 / (sqrt (g2 (Rmax k (2 / 3)) F) + 5 / 3 - F)) - 2 / 5.

Lemma glued_eq k F : - 1 < k -> 0 < F <= 1 -> (2 / 3 < k -> 1 / 1000000 <= Rabs (band F k)) ->
  axial_pos k F = glued k F.
Proof.
  intros Hk HF Hb. unfold glued. destruct (Rle_lt_dec k (2 / 3)) as [H|H].
  - rewrite axial_low by assumption. rewrite Rmin_left, Rmax_right by assumption.
    replace (g2 (2 / 3) F) with (F ^ 2) by (unfold g2; field). rewrite sqrt_pow2 by lra. field. lra.
  - rewrite axial_high by auto. rewrite Rmin_right, Rmax_left by lra.
    pose proof (sqrt_g2_gt k F H ltac:(lra)). field. lra.
Qed.

Lemma glued_cont (k F : R -> R) (t : R) : continuous k t -> continuous F t -> - 1 < k t -> 0 < F t <= 1 ->
  continuous (fun t => glued (k t) (F t)) t.
Proof.
  intros Ck CF Hk HF. unfold glued.
  assert (Cm : continuous (fun t => Rmin (k t) (2 / 3)) t) by (apply cR_min; [assumption|apply continuous_const]).
  assert (CM : continuous (fun t => Rmax (k t) (2 / 3)) t) by (apply cR_max; [assumption|apply continuous_const]).
  apply cR_minus; [|apply continuous_const]. apply cR_plus.
  - apply cR_div; [assumption|apply cR_plus; [apply continuous_const|assumption]|].
    unfold Rmin. destruct (Rle_dec (k t) (2 / 3)); lra.
  - apply cR_minus; [apply continuous_const|]. apply cR_div; [apply continuous_const| |].
    + apply cR_minus; [|assumption]. apply cR_plus; [|apply continuous_const]. apply cR_sqrt.
      unfold g2. cont.
    + pose proof (sqrt_pos (g2 (Rmax (k t) (2 / 3)) (F t))). lra.
Qed.

(** ** One station *)

(** The airfoil routine computes the real functions clf, cdf on finite arguments. *)
Definition computes (af : airfoil fl) (clf cdf : R -> R -> R) : Prop :=
  forall al' Re' al Re, rep al' al -> rep Re' Re ->
    rep (fst (af al' Re')) (clf al Re) /\ rep (snd (af al' Re')) (cdf al Re).

Lemma residual_rep (rt : rotor fl) (sc : sect fl) r chord t Vx Vy Rhub Rtip rho mu p clf cdf phi :
  rep (s_r sc) r -> rep (s_chord sc) chord -> rep (s_theta sc) t -> rep (s_Vx sc) Vx -> rep (s_Vy sc) Vy ->
  rep (rt_Rhub rt) Rhub -> rep (rt_Rtip rt) Rtip -> rep (rt_rho rt) rho -> rep (rt_mu rt) mu -> rep (rt_pitch rt) p ->
  computes (s_af sc) clf cdf -> mu <> 0 -> Vx <> 0 -> Vy <> 0 ->
  inside (rt_B rt) r Rhub Rtip phi -> cos phi <> 0 ->
  let Re := rho * sqrt (Vx ^ 2 + Vy ^ 2) * chord / mu in
  let cl := clf (phi - (t + p)) Re in
  let cd := cdf (phi - (t + p)) Re in
  - 1 < loading (rt_opts rt) (rt_B rt) r chord Rhub Rtip phi cl cd ->
  rep (errf rt sc 0 (Fin phi))
      (out_fzero (inductionFactors (rt_opts rt) (rt_B rt) r chord Rhub Rtip phi cl cd Vx Vy)).
Proof.
  intros Qr Qc Qt Qx Qy Qh QT Qrho Qmu Qp Haf Hmu HVx HVy Hin Hc Re cl cd Hk.
  unfold errf. cbn [bem_loop]. unfold bem_pass.
  assert (ER : exists al' W' Re', relativeWind (Fin phi) (ofR 0) (ofR 0) (s_Vx sc) (s_Vy sc) (rt_pitch rt) (s_chord sc)
            (s_theta sc) (rt_rho rt) (rt_mu rt) = (al', W', Re') /\ rep al' (phi - (t + p)) /\ rep Re' Re).
  { unfold relativeWind. do 3 eexists. split; [reflexivity|].
    cbn [nmul ndiv nsub nadd nopp nabs nsqrt nle nlt ofR fl_arith R_arith fabs flt fval].
    split; [reps|]. rewrite Rabs_R0. replace (rltb 10 0) with false by (symmetry; apply rltb_false; lra).
    subst Re. apply rep_div; [|assumption|assumption].
    replace (Vx ^ 2 + Vy ^ 2) with (Vx * (1 - 0) * (Vx * (1 - 0)) + Vy * (1 + 0) * (Vy * (1 + 0))) by ring.
    repeat apply rep_mul; try assumption. apply rep_sqrt; [reps|].
    pose proof (Rle_0_sqr (Vx * (1 - 0))). pose proof (Rle_0_sqr (Vy * (1 + 0))). unfold Rsqr in *. lra. }
  destruct ER as (al' & W' & Re' & -> & Qal & QRe).
  destruct (Haf al' Re' _ _ Qal QRe) as [Qcl Qcd].
  destruct (s_af sc al' Re') as [cl' cd']. cbn [fst snd] in Qcl, Qcd.
  fold cl in Qcl. fold cd in Qcd.
  pose proof (fzero_transfer (rt_opts rt) (rt_B rt) r chord Rhub Rtip phi cl cd Vx Vy _ _ _ _ _ _ _ _ _
    Qr Qc Qh QT (rep_Fin phi) Qcl Qcd Qx Qy Hin Hc HVx HVy Hk) as H.
  destruct (inductionFactors (rt_opts rt) (rt_B rt) (s_r sc) _ _ _ _ _ _ _ _) as ((fz & a) & ap). exact H.
Qed.

Lemma bracket_trig npi phi : 3 < npi < PI -> 1 / 1000000 <= phi <= npi / 2 -> 0 < phi < PI /\ 0 < cos phi.
Proof. intros. split; [lra|]. apply cos_gt_0; lra. Qed.

Lemma zero_exists : forall npi (rt : rotor fl) (sc : sect fl) r chord t Vx Vy Rhub Rtip rho mu p clf cdf,
  3 < npi < PI ->
  rep (s_r sc) r -> rep (s_chord sc) chord -> rep (s_theta sc) t -> rep (s_Vx sc) Vx -> rep (s_Vy sc) Vy ->
  rep (rt_Rhub rt) Rhub -> rep (rt_Rtip rt) Rtip -> rep (rt_rho rt) rho -> rep (rt_mu rt) mu -> rep (rt_pitch rt) p ->
  computes (s_af sc) clf cdf -> mu <> 0 -> Vx <> 0 -> Vy <> 0 ->
  (1 <= rt_B rt)%nat -> 0 < Rhub < r -> r < Rtip ->
  (forall Re al, continuous (fun al => clf al Re) al) -> (forall Re al, continuous (fun al => cdf al Re) al) ->
  let Re := rho * sqrt (Vx ^ 2 + Vy ^ 2) * chord / mu in
  (forall phi, 1 / 1000000 <= phi <= npi / 2 ->
     let k := loading (rt_opts rt) (rt_B rt) r chord Rhub Rtip phi (clf (phi - (t + p)) Re) (cdf (phi - (t + p)) Re) in
     - 1 < k /\ (2 / 3 < k -> 1 / 1000000 <= Rabs (band (lossF (rt_opts rt) (rt_B rt) r Rhub Rtip phi) k))) ->
  (pos (errf rt sc 0 (Fin (1 / 1000000))) /\ neg (errf rt sc 0 (Fin (npi / 2)))) \/
  (neg (errf rt sc 0 (Fin (1 / 1000000))) /\ pos (errf rt sc 0 (Fin (npi / 2)))) ->
  (exists phi, 1 / 1000000 <= phi <= npi / 2 /\ rep (errf rt sc 0 (Fin phi)) 0) /\
  (forall phi, 1 / 1000000 <= phi <= npi / 2 -> exists y, rep (errf rt sc 0 (Fin phi)) y).
Proof.
  intros npi rt sc r chord t Vx Vy Rhub Rtip rho mu p clf cdf Hnpi Qr Qc Qt Qx Qy Qh QT Qrho Qmu Qp Haf Hmu HVx HVy
    HB Hr HT Ccl Ccd Re Hk Hs.
  set (o := rt_opts rt) in *. set (B := rt_B rt) in *.
  set (cl := fun phi => clf (phi - (t + p)) Re). set (cd := fun phi => cdf (phi - (t + p)) Re).
  set (E := fun phi => out_fzero (inductionFactors o B r chord Rhub Rtip phi (cl phi) (cd phi) Vx Vy)).
  assert (Hin : forall phi, 1 / 1000000 <= phi <= npi / 2 -> inside B r Rhub Rtip phi).
  { intros phi Hphi. destruct (bracket_trig _ _ Hnpi Hphi). repeat split; auto; lra. }
  assert (HE : forall phi, 1 / 1000000 <= phi <= npi / 2 -> rep (errf rt sc 0 (Fin phi)) (E phi)).
  { intros phi Hphi. destruct (bracket_trig _ _ Hnpi Hphi) as [_ Hc].
    apply (residual_rep rt sc r chord t Vx Vy Rhub Rtip rho mu p clf cdf phi); auto; [lra|].
    apply Hk. assumption. }
  set (G := fun phi => sin phi / (1 - glued (loading o B r chord Rhub Rtip phi (cl phi) (cd phi)) (lossF o B r Rhub Rtip phi))
       - cos phi / (Vy / Vx) * (1 - (if wakerotation o then loading_t o B r chord Rhub Rtip phi (cl phi) (cd phi) else 0))).
  assert (HG : forall phi, 1 / 1000000 <= phi <= npi / 2 -> E phi = G phi).
  { intros phi Hphi. destruct (bracket_trig _ _ Hnpi Hphi) as [_ Hc]. destruct (Hk phi Hphi) as [Hk1 Hk2].
    unfold E, G. rewrite ind_pos by auto. unfold out_fzero. cbn [fst].
    rewrite kp_spec by (auto; lra).
    rewrite glued_eq by (auto; apply lossF_unit; auto). reflexivity. }
  split; [|intros phi Hphi; exists (E phi); auto].
  assert (HI : 1 / 1000000 <= npi / 2) by lra.
  destruct (ivt_clamp E G (1 / 1000000) (npi / 2) HI HG) as (x & Hx & Ex).
  - pose proof (HE (1 / 1000000) ltac:(lra)) as R1. pose proof (HE (npi / 2) ltac:(lra)) as R2.
    assert (P : forall a x, rep a x -> pos a -> 0 < x).
    { intros a x Ha Hp. apply rep_inv in Ha. destruct Ha as [->|[-> _]]; [apply pos_Fin in Hp; assumption|].
      destruct (pos_NZ Hp). }
    assert (N : forall a x, rep a x -> neg a -> x < 0).
    { intros a x Ha Hp. apply rep_inv in Ha. destruct Ha as [->|[-> _]]; [apply neg_Fin in Hp; assumption|].
      destruct (neg_NZ Hp). }
    destruct Hs as [[S1 S2]|[S1 S2]]; [right|left].
    + pose proof (P _ _ R1 S1). pose proof (N _ _ R2 S2). lra.
    + pose proof (N _ _ R1 S1). pose proof (P _ _ R2 S2). lra.
  - intros x. set (phi := clamp (1 / 1000000) (npi / 2)).
    assert (Hphi : 1 / 1000000 <= phi x <= npi / 2) by (apply clamp_range; assumption).
    assert (Cphi : continuous phi x) by apply clamp_cont.
    destruct (bracket_trig _ _ Hnpi Hphi) as [Hp Hc]. pose proof (Hin _ Hphi) as Hi.
    assert (Ca : continuous (fun t0 => phi t0 - (t + p)) x) by (apply cR_minus; [assumption|apply continuous_const]).
    assert (C1 : continuous (fun t => cl (phi t)) x).
    { apply (continuous_comp (fun t0 => phi t0 - (t + p)) (fun al => clf al Re)); [assumption|apply Ccl]. }
    assert (C2 : continuous (fun t => cd (phi t)) x).
    { apply (continuous_comp (fun t0 => phi t0 - (t + p)) (fun al => cdf al Re)); [assumption|apply Ccd]. }
    destruct (Hk _ Hphi) as [Hk1 Hk2].
    pose proof (lossF_unit o _ _ _ _ _ Hi) as HF.
    unfold G. apply cR_minus.
    + apply cR_div; [apply cR_sin; assumption| |].
      * apply cR_minus; [apply continuous_const|].
        apply (glued_cont (fun t => loading o B r chord Rhub Rtip (phi t) (cl (phi t)) (cd (phi t)))
                          (fun t => lossF o B r Rhub Rtip (phi t))); auto.
        -- apply (loading_cont o B r chord Rhub Rtip phi (fun t => cl (phi t)) (fun t => cd (phi t)) x); assumption.
        -- apply lossF_cont; assumption.
      * rewrite <- glued_eq by auto.
        destruct (inductionFactors o B r chord Rhub Rtip (phi x) (cl (phi x)) (cd (phi x)) Vx Vy) as ((fz & a) & ap) eqn:Heq.
        pose proof (a_below_one _ _ _ _ _ _ _ _ _ _ _ _ _ _ Hi Heq Hk1) as (Ha & _).
        pose proof (ind_pos_a o B r chord Rhub Rtip (phi x) (cl (phi x)) (cd (phi x)) Vx Vy Hi) as Ea.
        rewrite Heq in Ea. unfold out_a in Ea. cbn [fst snd] in Ea. rewrite <- Ea. lra.
    + apply cR_mult.
      * apply cR_div; [apply cR_cos; assumption|apply continuous_const|nz].
      * apply cR_minus; [apply continuous_const|]. destruct (wakerotation o); [|apply continuous_const].
        apply (loading_t_cont o B r chord Rhub Rtip phi (fun t => cl (phi t)) (fun t => cd (phi t)) x); auto; lra.
  - exists x. split; [assumption|]. rewrite <- Ex. apply HE. assumption.
Qed.

(** With a root finder that accepts a sign change the station never falls back to angle 0. *)
Lemma solve_succeeds : forall npi bq (rt : rotor fl) (sc : sect fl) r chord t Vx Vy Rhub Rtip rho mu p clf cdf,
  3 < npi < PI -> root_inside bq -> accepts_sign_change bq ->
  rep (s_r sc) r -> rep (s_chord sc) chord -> rep (s_theta sc) t -> rep (s_Vx sc) Vx -> rep (s_Vy sc) Vy ->
  rep (rt_Rhub rt) Rhub -> rep (rt_Rtip rt) Rtip -> rep (rt_rho rt) rho -> rep (rt_mu rt) mu -> rep (rt_pitch rt) p ->
  computes (s_af sc) clf cdf -> mu <> 0 -> Vx <> 0 -> Vy <> 0 ->
  (1 <= rt_B rt)%nat -> 0 < Rhub < r -> r < Rtip ->
  (forall Re al, continuous (fun al => clf al Re) al) -> (forall Re al, continuous (fun al => cdf al Re) al) ->
  let Re := rho * sqrt (Vx ^ 2 + Vy ^ 2) * chord / mu in
  (forall phi, 1 / 1000000 <= phi <= npi / 2 ->
     let k := loading (rt_opts rt) (rt_B rt) r chord Rhub Rtip phi (clf (phi - (t + p)) Re) (cdf (phi - (t + p)) Re) in
     - 1 < k /\ (2 / 3 < k -> 1 / 1000000 <= Rabs (band (lossF (rt_opts rt) (rt_B rt) r Rhub Rtip phi) k))) ->
  (pos (errf rt sc 0 (Fin (1 / 1000000))) /\ neg (errf rt sc 0 (Fin (npi / 2)))) \/
  (neg (errf rt sc 0 (Fin (1 / 1000000))) /\ pos (errf rt sc 0 (Fin (npi / 2)))) ->
  exists v, solve npi bq (errf rt sc 0) = Ok (Fin v) /\ 1 / 1000000 <= v <= npi / 2 /\
    bq (errf rt sc 0) (Fin (1 / 1000000)) (Fin (npi / 2)) = Ok (Fin v).
Proof.
  intros npi bq rt sc r chord t Vx Vy Rhub Rtip rho mu p clf cdf Hnpi Hb1 Hb2 Qr Qc Qt Qx Qy Qh QT Qrho Qmu Qp Haf Hmu HVx HVy
    HB Hr HT Ccl Ccd Re Hk Hs.
  pose proof (zero_exists npi rt sc r chord t Vx Vy Rhub Rtip rho mu p clf cdf Hnpi Qr Qc Qt Qx Qy Qh QT Qrho Qmu Qp Haf Hmu
    HVx HVy HB Hr HT Ccl Ccd Hk Hs) as [_ Hfin].
  set (f := errf rt sc 0) in *.
  assert (HI : 1 / 1000000 <= npi / 2) by lra.
  destruct (Hb2 f _ _ HI Hfin Hs) as (x & Ex). destruct (Hb1 _ _ _ _ HI Ex) as (v & -> & Hv).
  exists v. split; [|split; [assumption|exact Ex]].
  assert (D : documented_bracket npi f (1 / 1000000) (npi / 2)).
  { constructor 1. assert (PN : forall x, pos x -> neg x -> False).
    { intros y [->|(a & -> & Ha)] [E|(b & E & Hb)]; try discriminate. injection E; intros; subst; lra. }
    intros [[S1 S2]|[S1 S2]]; destruct Hs as [[T1 T2]|[T1 T2]];
      first [exact (PN _ S1 T1) | exact (PN _ T1 S1) | exact (PN _ S2 T2) | exact (PN _ T2 S2)]. }
  destruct (documented_bracket_exists npi f) as (lo & hi & D' & E).
  destruct (documented_bracket_fun _ _ _ _ _ _ D D') as [<- <-].
  unfold solve. rewrite E, Ex. reflexivity.
Qed.
