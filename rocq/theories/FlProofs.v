(** Transfer from exact reals to the carrier with IEEE special values: under
    guards (non-zero divisors, domains of sqrt and acos) both carriers compute the
    same finite numbers. *)
From Coq Require Import Reals Bool Arith Lia Lra.
From Verif Require Import Prelim Num Bem IndSpec IndProofs.
Open Scope R_scope.

(** The special-value number [a] stands for the real [x] (-0 stands for 0). *)
Definition rep (a : fl) (x : R) : Prop := fval a = Some x.

Lemma rep_Fin x : rep (Fin x) x.
Proof. reflexivity. Qed.

Lemma rep_inv a x : rep a x -> a = Fin x \/ (a = NZ /\ x = 0).
Proof. destruct a; unfold rep; simpl; intros H; try discriminate; injection H; intros <-; auto. Qed.

Ltac rep_cases :=
  repeat match goal with H : rep _ _ |- _ => apply rep_inv in H; destruct H as [->|[-> ->]] end.
Ltac rep_fin := unfold rep; simpl; repeat (rb_if; simpl); try (apply f_equal); try lra; try reflexivity.

Lemma rep_neg a x : rep a x -> rep (fneg a) (- x).
Proof. intros; rep_cases; rep_fin. Qed.
Lemma rep_add a b x y : rep a x -> rep b y -> rep (fadd a b) (x + y).
Proof. intros; rep_cases; rep_fin. Qed.
Lemma rep_sub a b x y : rep a x -> rep b y -> rep (fsub a b) (x - y).
Proof. intros. unfold fsub. apply rep_add; [assumption|apply rep_neg; assumption]. Qed.
Lemma rep_zero_s s : rep (zero_s s) 0.
Proof. destruct s; reflexivity. Qed.
Lemma rep_mul a b x y : rep a x -> rep b y -> rep (fmul a b) (x * y).
Proof.
  intros; rep_cases; unfold fmul; rewrite ?Rmult_0_l, ?Rmult_0_r; try apply rep_zero_s.
  destruct (reqb x 0 || reqb y 0) eqn:E; [|reflexivity].
  apply orb_prop in E. destruct E as [E|E]; rb_hyps; subst; rewrite ?Rmult_0_l, ?Rmult_0_r; apply rep_zero_s.
Qed.
Lemma rep_div a b x y : rep a x -> rep b y -> y <> 0 -> rep (fdiv a b) (x / y).
Proof.
  intros Ha Hb Hy. apply rep_inv in Hb. destruct Hb as [->|[_ E]]; [|contradiction].
  apply rep_inv in Ha. destruct Ha as [->|[-> ->]]; unfold fdiv; simpl.
  - destruct (reqb y 0) eqn:E; rb_hyps; [contradiction|].
    destruct (reqb x 0) eqn:E'; rb_hyps; [|reflexivity].
    subst. unfold Rdiv. rewrite Rmult_0_l. apply rep_zero_s.
  - destruct (reqb y 0) eqn:E; rb_hyps; [contradiction|].
    unfold Rdiv. rewrite Rmult_0_l. apply rep_zero_s.
Qed.
Lemma rep_abs a x : rep a x -> rep (fabs a) (Rabs x).
Proof. intros; rep_cases; rep_fin. rewrite Rabs_R0; reflexivity. Qed.
Lemma rep_sqrt a x : rep a x -> 0 <= x -> rep (fsqrt a) (sqrt x).
Proof. intros; rep_cases; rep_fin. rewrite sqrt_0; reflexivity. Qed.
Lemma rep_sin a x : rep a x -> rep (fsin a) (sin x).
Proof. intros; rep_cases; rep_fin. rewrite sin_0; reflexivity. Qed.
Lemma rep_cos a x : rep a x -> rep (fcos a) (cos x).
Proof. intros; rep_cases; rep_fin. rewrite cos_0; reflexivity. Qed.
Lemma rep_acos a x : rep a x -> -1 <= x <= 1 -> rep (facos a) (acos x).
Proof.
  intros H Hx; apply rep_inv in H; destruct H as [->|[-> ->]]; unfold rep; simpl.
  - replace (rleb (-1) x) with true by (symmetry; apply rleb_true; lra).
    replace (rleb x 1) with true by (symmetry; apply rleb_true; lra). reflexivity.
  - rewrite acos_0. reflexivity.
Qed.
Lemma rep_exp a x : rep a x -> rep (fexp a) (exp x).
Proof. intros; rep_cases; rep_fin. rewrite exp_0; reflexivity. Qed.
Lemma rep_lt a b x y : rep a x -> rep b y -> flt a b = rltb x y.
Proof. intros; rep_cases; reflexivity. Qed.
Lemma rep_eq a b x y : rep a x -> rep b y -> feq a b = reqb x y.
Proof. intros; rep_cases; reflexivity. Qed.
Lemma rep_le a b x y : rep a x -> rep b y -> fle a b = rleb x y.
Proof.
  intros H1 H2. unfold fle. rewrite (rep_lt _ _ _ _ H1 H2), (rep_eq _ _ _ _ H1 H2).
  destruct (rltb x y) eqn:E1, (reqb x y) eqn:E2, (rleb x y) eqn:E3; rb_hyps; simpl; try reflexivity; try lra.
Qed.

(** ** Loss factors and loading parameters *)
Record rep_locals (L : bemlocals fl) (M : bemlocals R) : Prop := {
  rl_s : rep (l_sphi L) (l_sphi M); rl_c : rep (l_cphi L) (l_cphi M);
  rl_F : rep (l_F L) (l_F M); rl_k : rep (l_k L) (l_k M); rl_kp : rep (l_kp L) (l_kp M) }.

Lemma exp_dom f : 0 <= f -> -1 <= exp (- f) <= 1.
Proof.
  intros H. pose proof (exp_pos (- f)). split; [lra|]. rewrite <- exp_0.
  destruct H as [H|<-]; [left; apply exp_increasing; lra|right; f_equal; ring].
Qed.

Lemma locals_transfer o B (r chord Rhub Rtip phi cl cd : R) (r' chord' Rhub' Rtip' phi' cl' cd' : fl) :
  rep r' r -> rep chord' chord -> rep Rhub' Rhub -> rep Rtip' Rtip -> rep phi' phi -> rep cl' cl -> rep cd' cd ->
  inside B r Rhub Rtip phi -> cos phi <> 0 ->
  rep_locals (bem_locals o B r' chord' Rhub' Rtip' phi' cl' cd')
             (bem_locals o B r chord Rhub Rtip phi cl cd).
Proof.
  intros Qr Qc Qh Qt Qp Qcl Qcd Hin Hc. pose proof Hin as (HB & (H1 & H2) & H3 & H4).
  assert (Hs : 0 < sin phi) by (apply sin_gt_0; lra). pose proof PI_RGT_0 as HP.
  assert (HB' : 1 <= INR B) by (change 1 with (INR 1); apply le_INR; assumption).
  pose proof (lossF_unit o _ _ _ _ _ Hin) as HFu.
  assert (HF : l_F (bem_locals o B r chord Rhub Rtip phi cl cd) <> 0) by (rewrite l_F_spec; lra).
  assert (Rs : rep (fsin phi') (sin phi)) by (apply rep_sin; assumption).
  assert (Rc : rep (fcos phi') (cos phi)) by (apply rep_cos; assumption).
  assert (Rsig : rep (fdiv (fmul (fdiv (fdiv (Fin (INR B)) (Fin 2)) (Fin PI)) chord') r')
                     (INR B / 2 / PI * chord / r)).
  { apply rep_div; [|first [apply rep_Fin | assumption]|lra]. apply rep_mul; [|first [apply rep_Fin | assumption]].
    apply rep_div; [|first [apply rep_Fin | assumption]|lra]. apply rep_div; try first [apply rep_Fin | assumption]; lra. }
  assert (Rft : rep (fdiv (fmul (fdiv (Fin (INR B)) (Fin 2)) (fsub Rtip' r')) (fmul r' (fsin phi')))
                    (INR B / 2 * (Rtip - r) / (r * sin phi))).
  { apply rep_div; [| |nz].
    - apply rep_mul; [apply rep_div; try first [apply rep_Fin | assumption]; lra|apply rep_sub; first [apply rep_Fin | assumption]].
    - apply rep_mul; first [apply rep_Fin|assumption]. }
  assert (Rfh : rep (fdiv (fmul (fdiv (Fin (INR B)) (Fin 2)) (fsub r' Rhub')) (fmul Rhub' (fsin phi')))
                    (INR B / 2 * (r - Rhub) / (Rhub * sin phi))).
  { apply rep_div; [| |nz].
    - apply rep_mul; [apply rep_div; try first [apply rep_Fin | assumption]; lra|apply rep_sub; first [apply rep_Fin | assumption]].
    - apply rep_mul; first [apply rep_Fin|assumption]. }
  assert (Dft : 0 <= INR B / 2 * (Rtip - r) / (r * sin phi)).
  { left. apply Rdiv_lt_0_compat; apply Rmult_lt_0_compat; lra. }
  assert (Dfh : 0 <= INR B / 2 * (r - Rhub) / (Rhub * sin phi)).
  { left. apply Rdiv_lt_0_compat; apply Rmult_lt_0_compat; lra. }
  assert (RF : rep (l_F (bem_locals o B r' chord' Rhub' Rtip' phi' cl' cd'))
                   (l_F (bem_locals o B r chord Rhub Rtip phi cl cd))).
  { unfold bem_locals, l_F. cbn [nmul ndiv nsub nopp nacos nexp nsin ofR fl_arith R_arith].
    apply rep_mul.
    - destruct (tipLoss o); [|first [apply rep_Fin | assumption]]. apply rep_mul; [apply rep_div; try first [apply rep_Fin | assumption]; lra|].
      apply rep_acos; [apply rep_exp, rep_neg, Rft|apply exp_dom; assumption].
    - destruct (hubLoss o); [|first [apply rep_Fin | assumption]]. apply rep_mul; [apply rep_div; try first [apply rep_Fin | assumption]; lra|].
      apply rep_acos; [apply rep_exp, rep_neg, Rfh|apply exp_dom; assumption]. }
  assert (Rcn : rep (l_cn (bem_locals o B r' chord' Rhub' Rtip' phi' cl' cd'))
                    (l_cn (bem_locals o B r chord Rhub Rtip phi cl cd))).
  { unfold bem_locals, l_cn. cbn [nmul ndiv nsub nadd nopp nacos nexp nsin ncos ofR fl_arith R_arith].
    destruct (useCd o); simpl negb; cbv iota; [apply rep_add|]; apply rep_mul; first [apply rep_Fin|assumption]. }
  assert (Rct : rep (l_ct (bem_locals o B r' chord' Rhub' Rtip' phi' cl' cd'))
                    (l_ct (bem_locals o B r chord Rhub Rtip phi cl cd))).
  { unfold bem_locals, l_ct. cbn [nmul ndiv nsub nadd nopp nacos nexp nsin ncos ofR fl_arith R_arith].
    destruct (useCd o); simpl negb; cbv iota; [apply rep_sub|]; apply rep_mul; first [apply rep_Fin|assumption]. }
  constructor; try assumption.
  - rewrite (proj1 (l_k_eq o B r chord Rhub Rtip phi cl cd)).
    repeat (apply rep_div; [|first [assumption | apply rep_Fin]|first [assumption | lra]]).
    apply rep_mul; assumption.
  - rewrite (proj2 (l_k_eq o B r chord Rhub Rtip phi cl cd)).
    repeat (apply rep_div; [|first [assumption | apply rep_Fin]|first [assumption | lra]]).
    apply rep_mul; assumption.
Qed.

(** ** The whole routine for a positive inflow angle *)
Lemma axial_transfer (kf Ff : fl) (k F : R) : rep kf k -> rep Ff F -> 0 < F <= 1 -> 1 + k <> 0 ->
  rep (axial_pos kf Ff) (axial_pos k F).
Proof.
  intros Hk HF HF1 Hk1. unfold axial_pos.
  cbn [nmul ndiv nsub nadd nopp nabs nsqrt nle nlt ofR fl_arith R_arith].
  assert (R23 : rep (fdiv (Fin 2) (Fin 3)) (2 / 3)) by (apply rep_div; try apply rep_Fin; lra).
  rewrite (rep_le _ _ _ _ Hk R23).
  assert (RFk : rep (fmul (fmul (Fin 2) Ff) kf) (2 * F * k)).
  { apply rep_mul; [apply rep_mul; [apply rep_Fin|assumption]|assumption]. }
  assert (R3 : rep (fsub (fmul (fmul (Fin 2) Ff) kf) (fsub (fdiv (Fin 25) (Fin 9)) (fmul (Fin 2) Ff))) (band F k)).
  { apply rep_sub; [assumption|]. apply rep_sub; [apply rep_div; try apply rep_Fin; lra|apply rep_mul; [apply rep_Fin|assumption]]. }
  assert (R2 : rep (fsub (fmul (fmul (Fin 2) Ff) kf) (fmul (fsub (fdiv (Fin 4) (Fin 3)) Ff) Ff)) (g2 k F)).
  { apply rep_sub; [assumption|]. apply rep_mul; [|assumption]. apply rep_sub; [apply rep_div; try apply rep_Fin; lra|assumption]. }
  assert (R1 : rep (fsub (fmul (fmul (Fin 2) Ff) kf) (fsub (fdiv (Fin 10) (Fin 9)) Ff)) (2 * F * k - (10 / 9 - F))).
  { apply rep_sub; [assumption|]. apply rep_sub; [apply rep_div; try apply rep_Fin; lra|assumption]. }
  rewrite (rep_lt _ (Fin (1 / 1000000)) _ _ (rep_abs _ _ R3) (rep_Fin _)).
  fold (band F k). fold (g2 k F).
  destruct (rleb k (2 / 3)) eqn:E; rb_hyps.
  - apply rep_div; [assumption|apply rep_add; [apply rep_Fin|assumption]|assumption].
  - pose proof (g2_gt k F E ltac:(lra)) as Hg. pose proof (sqrt_g2_gt k F E ltac:(lra)) as Hq.
    assert (Rq := rep_sqrt _ _ R2 ltac:(nra)).
    destruct (rltb (Rabs (band F k)) (1 / 1000000)) eqn:E2; rb_hyps.
    + apply rep_sub; [apply rep_Fin|]. apply rep_div; [apply rep_div; try apply rep_Fin; lra|assumption|lra].
    + apply rep_div; [apply rep_sub; assumption|assumption|].
      intros E9. rewrite E9, Rabs_R0 in E2. lra.
Qed.

Lemma ind_transfer_rep : forall o B (r chord Rhub Rtip phi cl cd Vx Vy fz a ap : R)
  (r' chord' Rhub' Rtip' phi' cl' cd' Vx' Vy' : fl),
  rep r' r -> rep chord' chord -> rep Rhub' Rhub -> rep Rtip' Rtip -> rep phi' phi -> rep cl' cl -> rep cd' cd ->
  rep Vx' Vx -> rep Vy' Vy ->
  inside B r Rhub Rtip phi -> cos phi <> 0 -> Vx <> 0 -> Vy <> 0 ->
  - 1 < loading o B r chord Rhub Rtip phi cl cd ->
  (wakerotation o = true -> loading_t o B r chord Rhub Rtip phi cl cd <> 1) ->
  inductionFactors o B r chord Rhub Rtip phi cl cd Vx Vy = (fz, a, ap) ->
  exists fz' a' ap',
    inductionFactors o B r' chord' Rhub' Rtip' phi' cl' cd' Vx' Vy'
      = (fz', a', ap') /\ rep fz' fz /\ rep a' a /\ rep ap' ap.
Proof.
  intros o B r chord Rhub Rtip phi cl cd Vx Vy fz a ap r' chord' Rhub' Rtip' phi' cl' cd' Vx' Vy' Qr Qc Qh Qt Qp Qcl Qcd Qx Qy Hin Hc HVx HVy Hk Hkt Heq.
  pose proof (locals_transfer o B r chord Rhub Rtip phi cl cd _ _ _ _ _ _ _ Qr Qc Qh Qt Qp Qcl Qcd Hin Hc) as [Rs Rc RF Rk Rkp].
  pose proof (lossF_unit o _ _ _ _ _ Hin) as HFu.
  pose proof Hin as (HB & (H1 & H2) & H3 & H4).
  assert (Hs : 0 < sin phi) by (apply sin_gt_0; lra).
  pose proof (a_below_one o B r chord Rhub Rtip phi cl cd Vx Vy fz a ap Hin Heq Hk) as (Ha1 & _).
  rewrite (k_spec o B r chord Rhub Rtip phi cl cd Hin) in Rk.
  rewrite (kp_spec o B r chord Rhub Rtip phi cl cd Hin Hc) in Rkp.
  rewrite l_F_spec in RF by lra.
  rewrite ind_pos, kp_spec in Heq by assumption.
  set (k := loading o B r chord Rhub Rtip phi cl cd) in *.
  set (t := loading_t o B r chord Rhub Rtip phi cl cd) in *.
  set (F := lossF o B r Rhub Rtip phi) in *.
  set (L := bem_locals o B r' chord' Rhub' Rtip' phi' cl' cd') in *.
  pose proof (axial_transfer _ _ _ _ Rk RF HFu ltac:(lra)) as Ra.
  injection Heq; clear Heq; intros Eap Ea Efz. rewrite Ea in Efz, Ra.
  eexists; eexists; eexists. split; [reflexivity|].
  cbn [nmul ndiv nsub nadd nopp nabs nsqrt nle nlt ofR fl_arith R_arith]. fold L.
  rewrite (rep_lt (Fin 0) phi' 0 phi (rep_Fin 0) Qp).
  replace (rltb 0 phi) with true by (symmetry; apply rltb_true; lra).
  assert (Hlam : Vy / Vx <> 0) by nz.
  assert (Rlam : rep (fdiv Vy' Vx') (Vy / Vx)) by (apply rep_div; assumption).
  split; [|split; [exact Ra|]].
  - rewrite <- Efz. apply rep_sub.
    + apply rep_div; [exact Rs|apply rep_sub; [apply rep_Fin|exact Ra]|lra].
    + apply rep_mul; [apply rep_div; [exact Rc|exact Rlam|exact Hlam]|].
      apply rep_sub; [apply rep_Fin|]. destruct (wakerotation o); [exact Rkp|apply rep_Fin].
  - rewrite <- Eap. destruct (wakerotation o); [|apply rep_Fin]. specialize (Hkt eq_refl).
    apply rep_div; [exact Rkp|apply rep_sub; [apply rep_Fin|exact Rkp]|lra].
Qed.

Lemma ind_transfer : forall o B (r chord Rhub Rtip phi cl cd Vx Vy fz a ap : R),
  inside B r Rhub Rtip phi -> cos phi <> 0 -> Vx <> 0 -> Vy <> 0 ->
  - 1 < loading o B r chord Rhub Rtip phi cl cd ->
  (wakerotation o = true -> loading_t o B r chord Rhub Rtip phi cl cd <> 1) ->
  inductionFactors o B r chord Rhub Rtip phi cl cd Vx Vy = (fz, a, ap) ->
  exists fz' a' ap',
    inductionFactors o B (Fin r) (Fin chord) (Fin Rhub) (Fin Rtip) (Fin phi) (Fin cl) (Fin cd) (Fin Vx) (Fin Vy)
      = (fz', a', ap') /\ rep fz' fz /\ rep a' a /\ rep ap' ap.
Proof. intros. eapply ind_transfer_rep; try apply rep_Fin; eassumption. Qed.
