(** Lemmas for the uniqueness of the inflow angle of attached flow (C134). *)
From Coquelicot Require Import Coquelicot.
From Coq Require Import Reals Bool Arith List Lra Lia Psatz Classical.
From Verif Require Import Prelim Num Bem IndSpec IndProofs Blade BladeSpec FlProofs StationProofs StationWitness StationExist StationLoads BladeProofs InverseForward DragStation AttachedSpec AttachedLoss.
Import ListNotations.
Open Scope R_scope.

(** ** The residual *)

Lemma plain_lossF o B r Rhub Rtip phi : plain o -> lossF o B r Rhub Rtip phi = 1.
Proof. intros (_ & T & H). unfold lossF. rewrite T, H. ring. Qed.

Lemma lift_kp o B (r chord Rhub Rtip phi cl cd : R) : useCd o = false -> inside B r Rhub Rtip phi -> 0 < cos phi ->
  loading_t o B r chord Rhub Rtip phi cl cd = loading o B r chord Rhub Rtip phi cl cd * (sin phi / cos phi) ^ 2.
Proof.
  intros PL I Hc. pose proof (lossF_unit o _ _ _ _ _ I) as F. destruct I as (HB & (H1 & H2) & H3 & H4). assert (Hs : 0 < sin phi) by (apply sin_gt_0; lra).
  unfold loading, loading_t, coef_n, coef_t. rewrite PL. set (L := lossF _ _ _ _ _ _) in *. unfold solidity. pose proof PI_RGT_0. field. repeat split; lra.
Qed.

Lemma induced_not (kf Ff sf : fl) k F s : rep kf k -> rep Ff F -> 0 < F <= 1 -> rep sf s -> 0 < s -> k <= - 1 -> exists x, rep (fdiv sf (fsub (Fin 1) (axial_pos kf Ff))) x /\ x <= 0.
Proof.
  intros Rk RF HF Rs Hs Hk. destruct (Req_dec k (-1)) as [K|K].
  - assert (EA : axial_pos kf Ff = NInf).
    { unfold axial_pos. cbn [nmul ndiv nsub nadd nopp nabs nsqrt nle nlt ofR fl_arith R_arith]. apply rep_inv in Rk. destruct Rk as [->|[_ E]]; [|lra]. rewrite K.
      assert (R23 : rep (fdiv (Fin 2) (Fin 3)) (2 / 3)) by (apply rep_div; try apply rep_Fin; lra).
      rewrite (rep_le _ _ _ _ (rep_Fin (-1)) R23). replace (rleb (-1) (2 / 3)) with true by (symmetry; apply rleb_true; lra).
      cbn [fadd]. replace (1 + -1) with 0 by ring. unfold fdiv. cbn [iszero isneg]. replace (reqb 0 0) with true by (symmetry; apply reqb_true; reflexivity).
      replace (reqb (-1) 0) with false by (symmetry; apply reqb_false; lra). replace (rltb (-1) 0) with true by (symmetry; apply rltb_true; lra).
      replace (rltb 0 0) with false by (symmetry; apply rltb_false; lra). reflexivity. }
    rewrite EA. apply rep_inv in Rs. destruct Rs as [->|[_ E]]; [|lra]. exists 0. split; [|lra]. unfold fsub. cbn [fneg fadd fdiv isneg].
    replace (rltb s 0) with false by (symmetry; apply rltb_false; lra). reflexivity.
  - pose proof (axial_transfer _ _ _ _ Rk RF HF ltac:(lra)) as Ra. rewrite axial_low in Ra by lra. exists (s / (1 - k / (1 + k))).
    assert (E : 1 - k / (1 + k) = 1 / (1 + k)) by (field; lra). assert (I : / (1 + k) < 0) by (apply Rinv_lt_0_compat; lra).
    split; [apply rep_div; [exact Rs|apply rep_sub; [apply rep_Fin|exact Ra]|rewrite E; unfold Rdiv; apply Rlt_not_eq; lra]|].
    rewrite E. replace (s / (1 / (1 + k))) with (s * (1 + k)) by (field; lra). nra.
Qed.

(** The residual at loadings up to -1 is not zero. *)
Lemma fzero_not o B (r chord Rhub Rtip phi cl cd Vx Vy : R) (r' chord' Rhub' Rtip' phi' cl' cd' Vx' Vy' : fl) :
  rep r' r -> rep chord' chord -> rep Rhub' Rhub -> rep Rtip' Rtip -> rep phi' phi -> rep cl' cl -> rep cd' cd -> rep Vx' Vx -> rep Vy' Vy ->
  inside B r Rhub Rtip phi -> 0 < cos phi -> 0 < Vx -> 0 < Vy -> useCd o = false -> loading o B r chord Rhub Rtip phi cl cd <= - 1 ->
  exists x, rep (out_fzero (inductionFactors o B r' chord' Rhub' Rtip' phi' cl' cd' Vx' Vy')) x /\ x < 0.
Proof.
  intros Qr Qc Qh Qt Qp Qcl Qcd Qx Qy Hin Hc HVx HVy PL Hk.
  pose proof (locals_transfer o B r chord Rhub Rtip phi cl cd _ _ _ _ _ _ _ Qr Qc Qh Qt Qp Qcl Qcd Hin ltac:(lra)) as [Rs Rc RF Rk Rkp].
  pose proof Hin as (HB & (H1 & H2) & H3 & H4). assert (Hs : 0 < sin phi) by (apply sin_gt_0; lra).
  rewrite (k_spec o B r chord Rhub Rtip phi cl cd Hin) in Rk. rewrite (kp_spec o B r chord Rhub Rtip phi cl cd Hin ltac:(lra)) in Rkp.
  rewrite l_F_spec in RF by lra. pose proof (lossF_unit o _ _ _ _ _ Hin) as HF.
  pose proof (lift_kp o B r chord Rhub Rtip phi cl cd PL Hin Hc) as KP.
  set (k := loading o B r chord Rhub Rtip phi cl cd) in *. set (kp := loading_t o B r chord Rhub Rtip phi cl cd) in *.
  assert (KP0 : kp <= 0) by (rewrite KP; pose proof (pow2_ge_0 (sin phi / cos phi)); nra).
  set (L := bem_locals o B r' chord' Rhub' Rtip' phi' cl' cd') in *.
  destruct (induced_not (l_k L) (l_F L) (l_sphi L) k _ (sin phi) Rk RF HF Rs Hs Hk) as (x & RA & X).
  assert (Hlam : 0 < Vy / Vx) by (apply Rdiv_lt_0_compat; lra).
  assert (Rlam : rep (fdiv Vy' Vx') (Vy / Vx)) by (apply rep_div; try assumption; lra).
  set (kp0 := if wakerotation o then kp else 0). assert (KP1 : kp0 <= 0) by (unfold kp0; destruct (wakerotation o); lra).
  assert (B0 : 0 < cos phi / (Vy / Vx) * (1 - kp0)) by (apply Rmult_lt_0_compat; [apply Rdiv_lt_0_compat; lra|lra]).
  exists (x - cos phi / (Vy / Vx) * (1 - kp0)). split; [|lra].
  unfold out_fzero, inductionFactors. cbn [fst snd].
  cbn [nmul ndiv nsub nadd nopp nabs nsqrt nle nlt ofR fl_arith R_arith]. fold L.
  rewrite (rep_lt (Fin 0) phi' 0 phi (rep_Fin 0) Qp).
  replace (rltb 0 phi) with true by (symmetry; apply rltb_true; lra).
  apply rep_sub; [exact RA|]. apply rep_mul; [apply rep_div; [exact Rc|exact Rlam|lra]|]. apply rep_sub; [apply rep_Fin|]. unfold kp0. destruct (wakerotation o); cbn [negb]; [exact Rkp|apply rep_Fin].
Qed.

Section Station.
Variables (rt : rotor fl) (sc : sect fl) (r chord t Vx Vy Rhub Rtip rho mu p : R) (clf cdf : R -> R -> R).
Hypotheses (Qr : rep (s_r sc) r) (Qc : rep (s_chord sc) chord) (Qt : rep (s_theta sc) t) (Qx : rep (s_Vx sc) Vx) (Qy : rep (s_Vy sc) Vy).
Hypotheses (Qh : rep (rt_Rhub rt) Rhub) (QT : rep (rt_Rtip rt) Rtip) (Qrho : rep (rt_rho rt) rho) (Qmu : rep (rt_mu rt) mu) (Qp : rep (rt_pitch rt) p).
Hypotheses (Haf : computes (s_af sc) clf cdf) (Hmu : mu <> 0) (HVx : 0 < Vx) (HVy : 0 < Vy) (PL : useCd (rt_opts rt) = false).
Hypotheses (HB : (1 <= rt_B rt)%nat) (Hr : 0 < Rhub < r) (HT : r < Rtip) (Hch : 0 < chord).
Let Re := rho * sqrt (Vx ^ 2 + Vy ^ 2) * chord / mu.
Let kk phi := loading (rt_opts rt) (rt_B rt) r chord Rhub Rtip phi (clf (phi - (t + p)) Re) (cdf (phi - (t + p)) Re).
Let FF phi := lossF (rt_opts rt) (rt_B rt) r Rhub Rtip phi.
Let cut phi := clear_of_guard (rt_opts rt) (rt_B rt) r chord Rhub Rtip phi (clf (phi - (t + p)) Re) (cdf (phi - (t + p)) Re).
Let w := if wakerotation (rt_opts rt) then 1 else 0.

Lemma errf_ind phi : exists cl' cd', rep cl' (clf (phi - (t + p)) Re) /\ rep cd' (cdf (phi - (t + p)) Re) /\
  errf rt sc 0 (Fin phi) = out_fzero (inductionFactors (rt_opts rt) (rt_B rt) (s_r sc) (s_chord sc) (rt_Rhub rt) (rt_Rtip rt) (Fin phi) cl' cd' (s_Vx sc) (s_Vy sc)).
Proof.
  unfold errf. cbn [bem_loop]. unfold bem_pass.
  assert (ER : exists al' W' Re', relativeWind (Fin phi) (ofR 0) (ofR 0) (s_Vx sc) (s_Vy sc) (rt_pitch rt) (s_chord sc)
            (s_theta sc) (rt_rho rt) (rt_mu rt) = (al', W', Re') /\ rep al' (phi - (t + p)) /\ rep Re' Re).
  { unfold relativeWind. do 3 eexists. split; [reflexivity|].
    cbn [nmul ndiv nsub nadd nopp nabs nsqrt nle nlt ofR fl_arith R_arith fabs flt fval].
    split; [reps|]. rewrite Rabs_R0. replace (rltb 10 0) with false by (symmetry; apply rltb_false; lra).
    unfold Re. apply rep_div; [|assumption|assumption].
    replace (Vx ^ 2 + Vy ^ 2) with (Vx * (1 - 0) * (Vx * (1 - 0)) + Vy * (1 + 0) * (Vy * (1 + 0))) by ring.
    repeat apply rep_mul; try assumption. apply rep_sqrt; [reps|].
    pose proof (Rle_0_sqr (Vx * (1 - 0))). pose proof (Rle_0_sqr (Vy * (1 + 0))). unfold Rsqr in *. lra. }
  destruct ER as (al' & W' & Re' & -> & Qal & QRe). destruct (Haf al' Re' _ _ Qal QRe) as [Qcl Qcd].
  destruct (s_af sc al' Re') as [cl' cd']. cbn [fst snd] in Qcl, Qcd. exists cl', cd'. split; [exact Qcl|]. split; [exact Qcd|].
  destruct (inductionFactors (rt_opts rt) (rt_B rt) (s_r sc) _ _ _ _ _ _ _ _) as ((fz & a) & ap). reflexivity.
Qed.

Lemma sin_cos_pos phi : 0 < phi < PI / 2 -> 0 < sin phi /\ 0 < cos phi.
Proof. intros H. split; [apply sin_gt_0|apply cos_gt_0]; lra. Qed.

Lemma st_inside phi : 0 < phi < PI / 2 -> inside (rt_B rt) r Rhub Rtip phi.
Proof. intros H. unfold inside. repeat split; auto; lra. Qed.

(** What a zero of the residual satisfies. *)
Lemma zero_law phi : 0 < phi < PI / 2 -> cut phi -> rep (errf rt sc 0 (Fin phi)) 0 ->
  tan phi * hk (FF phi) (kk phi) = Vx / Vy * (1 - w * (kk phi * tan phi ^ 2)) /\ FF phi * kk phi * tan phi ^ 2 * cos phi = solidity (rt_B rt) chord r / 4 * clf (phi - (t + p)) Re.
Proof.
  intros Hp CG Z. destruct (sin_cos_pos phi Hp) as [Hs Hc]. pose proof (st_inside phi Hp) as Hin.
  destruct (errf_ind phi) as (cl' & cd' & Qcl & Qcd & E). rewrite E in Z.
  assert (K : - 1 < kk phi).
  { apply Rnot_le_lt. intros K. destruct (fzero_not _ _ _ _ _ _ _ _ _ _ _ _ _ _ _ _ _ _ _ _ Qr Qc Qh QT (rep_Fin phi) Qcl Qcd Qx Qy Hin Hc HVx HVy PL K) as (x & Rx & X).
    pose proof (rep_fun _ _ _ Rx Z). lra. }
  pose proof (fzero_transfer (rt_opts rt) (rt_B rt) r chord Rhub Rtip phi _ _ Vx Vy _ _ _ _ _ _ _ _ _ Qr Qc Qh QT (rep_Fin phi) Qcl Qcd Qx Qy Hin ltac:(lra) ltac:(lra) ltac:(lra) K) as T.
  pose proof (rep_fun _ _ _ T Z) as F. rewrite ind_pos in F by exact Hin. unfold out_fzero in F. cbn [fst] in F.
  rewrite kp_spec in F by (exact Hin || lra). rewrite (lift_kp _ _ _ _ _ _ _ _ _ PL Hin Hc) in F. fold (kk phi) in F. fold (FF phi) in F. pose proof (lossF_unit (rt_opts rt) _ _ _ _ _ Hin) as HF. fold (FF phi) in HF.
  assert (TT : sin phi / cos phi = tan phi) by reflexivity. rewrite TT in F.
  split.
  - rewrite <- (hk_axial _ _ HF K CG). set (ax := axial_pos (kk phi) (FF phi)) in *. set (kp := w * (kk phi * tan phi ^ 2)).
    assert (F' : sin phi / (1 - ax) - cos phi / (Vy / Vx) * (1 - kp) = 0) by (rewrite <- F; unfold kp, w; destruct (wakerotation _); ring).
    assert (G : sin phi * (1 / (1 - ax)) = cos phi * (Vx / Vy * (1 - kp))).
    { replace (sin phi * (1 / (1 - ax))) with (sin phi / (1 - ax)) by (unfold Rdiv; ring). replace (cos phi * (Vx / Vy * (1 - kp))) with (cos phi / (Vy / Vx) * (1 - kp)) by (field; lra). lra. }
    rewrite <- TT. apply (Rmult_eq_reg_l (cos phi)); [|lra]. rewrite <- G. set (q := 1 / (1 - ax)). field. lra.
  - rewrite <- TT. unfold kk, loading, coef_n. rewrite PL. fold (FF phi). set (sg := solidity _ _ _). field. lra.
Qed.

(** Of two zeros the larger one has less lift. *)
Lemma two_zeros a b : 0 < a -> a < b -> b < PI / 2 -> cut a -> cut b -> rep (errf rt sc 0 (Fin a)) 0 -> rep (errf rt sc 0 (Fin b)) 0 -> clf (b - (t + p)) Re < clf (a - (t + p)) Re.
Proof.
  intros A AB B Ka Kb Za Zb. apply Rnot_le_lt. intros M. destruct (zero_law a ltac:(lra) Ka Za) as [E1 F1]. destruct (zero_law b ltac:(lra) Kb Zb) as [E2 F2].
    destruct (sin_cos_pos a ltac:(lra)) as [Sa Ca]. destruct (sin_cos_pos b ltac:(lra)) as [Sb Cb].
    assert (Ta : tan a * cos a = sin a) by (unfold tan; field; lra). assert (Tb : tan b * cos b = sin b) by (unfold tan; field; lra).
    assert (TT : 0 < tan a < tan b) by (split; [apply tan_gt_0; lra|apply tan_increasing; lra]).
    assert (CC : cos b < cos a) by (apply cos_decreasing_1; lra). assert (SS : sin a < sin b) by (apply sin_increasing_1; lra).
    pose proof (solidity_pos (rt_B rt) chord r HB ltac:(lra) ltac:(lra)) as SP.
    pose proof (lossF_unit (rt_opts rt) _ _ _ _ _ (st_inside a ltac:(lra))) as Fa. pose proof (lossF_unit (rt_opts rt) _ _ _ _ _ (st_inside b ltac:(lra))) as Fb.
    destruct (loss_falls (rt_opts rt) (rt_B rt) r Rhub Rtip a b HB Hr HT A AB B) as [L1 L2]. fold (FF a) in Fa, L1, L2. fold (FF b) in Fb, L1, L2.
    apply (angle_unique (Vx / Vy) w (tan a) (tan b) (cos a) (cos b) (FF a * kk a * tan a ^ 2) (FF b * kk b * tan b ^ 2) (FF a) (FF b)); try lra.
    - apply Rdiv_lt_0_compat; lra.
    - unfold w; destruct (wakerotation _); lra.
    - rewrite Ta, Tb. exact L2.
    - rewrite F1, F2. apply Rmult_le_compat_l; lra.
    - replace (FF a * kk a * tan a ^ 2 / tan a ^ 2 / FF a) with (kk a) by (field; lra). replace (FF a * kk a * tan a ^ 2 / FF a) with (kk a * tan a ^ 2) by (field; lra). exact E1.
    - replace (FF b * kk b * tan b ^ 2 / tan b ^ 2 / FF b) with (kk b) by (field; lra). replace (FF b * kk b * tan b ^ 2 / FF b) with (kk b * tan b ^ 2) by (field; lra). exact E2.
Qed.

(** Lift that does not fall with the angle of attack: at most one zero. *)
Lemma zero_unique phi1 phi2 : 0 < phi1 < PI / 2 -> 0 < phi2 < PI / 2 -> cut phi1 -> cut phi2 -> (forall x y, 0 < x -> x <= y -> y < PI / 2 -> clf (x - (t + p)) Re <= clf (y - (t + p)) Re) ->
  rep (errf rt sc 0 (Fin phi1)) 0 -> rep (errf rt sc 0 (Fin phi2)) 0 -> phi1 = phi2.
Proof.
  intros H1 H2 K1 K2 M Z1 Z2. destruct (Rtotal_order phi1 phi2) as [L|[E|L]]; [|exact E|].
  - pose proof (two_zeros phi1 phi2 ltac:(lra) L ltac:(lra) K1 K2 Z1 Z2). pose proof (M phi1 phi2 ltac:(lra) ltac:(lra) ltac:(lra)). lra.
  - pose proof (two_zeros phi2 phi1 ltac:(lra) L ltac:(lra) K2 K1 Z2 Z1). pose proof (M phi2 phi1 ltac:(lra) ltac:(lra) ltac:(lra)). lra.
Qed.

(** With drag in the induction. *)
Let tsol := solidity (rt_B rt) chord r / 4.
Lemma zero_law_drag phi : useCd (rt_opts rt) = true -> 0 < phi < PI / 2 -> cut phi -> 0 <= clf (phi - (t + p)) Re -> 0 <= cdf (phi - (t + p)) Re -> rep (errf rt sc 0 (Fin phi)) 0 ->
  tan phi * hk (FF phi) ((tsol * clf (phi - (t + p)) Re + tsol * cdf (phi - (t + p)) Re * tan phi) / cos phi / tan phi ^ 2 / FF phi) =
  Vx / Vy * (1 - w * (tsol * clf (phi - (t + p)) Re / (cos phi * FF phi) - tsol * cdf (phi - (t + p)) Re / (FF phi * (tan phi * cos phi)))).
Proof.
  clear PL. intros UD Hp CG L0 D0 Z. destruct (sin_cos_pos phi Hp) as [Hs Hc]. pose proof (st_inside phi Hp) as Hin. pose proof (lossF_unit (rt_opts rt) _ _ _ _ _ Hin) as HF. fold (FF phi) in HF.
  pose proof (solidity_pos (rt_B rt) chord r HB ltac:(lra) ltac:(lra)) as SP.
  set (cl := clf (phi - (t + p)) Re) in *. set (cd := cdf (phi - (t + p)) Re) in *.
  assert (TT : sin phi / cos phi = tan phi) by reflexivity.
  assert (EK : (tsol * cl + tsol * cd * tan phi) / cos phi / tan phi ^ 2 / FF phi = kk phi).
  { rewrite <- TT. unfold kk, loading, coef_n, tsol. rewrite UD. fold (FF phi). fold cl cd. set (sg := solidity _ _ _). field. lra. }
  assert (ET : tsol * cl / (cos phi * FF phi) - tsol * cd / (FF phi * (tan phi * cos phi)) = loading_t (rt_opts rt) (rt_B rt) r chord Rhub Rtip phi cl cd).
  { rewrite <- TT. unfold loading_t, coef_t, tsol. rewrite UD. fold (FF phi). set (sg := solidity _ _ _). field. lra. }
  rewrite EK, ET.
  assert (K : 0 <= kk phi).
  { unfold kk, loading, coef_n. rewrite UD. fold (FF phi). fold cl cd. assert (0 <= cl * cos phi) by (apply Rmult_le_pos; lra). assert (0 <= cd * sin phi) by (apply Rmult_le_pos; lra).
    unfold Rdiv. apply Rmult_le_pos; [apply Rmult_le_pos; lra|]. left. apply Rinv_0_lt_compat. apply Rmult_lt_0_compat; [lra|apply pow_lt; lra]. }
  destruct (errf_ind phi) as (cl' & cd' & Qcl & Qcd & E). rewrite E in Z. fold cl in Qcl. fold cd in Qcd.
  pose proof (fzero_transfer (rt_opts rt) (rt_B rt) r chord Rhub Rtip phi _ _ Vx Vy _ _ _ _ _ _ _ _ _ Qr Qc Qh QT (rep_Fin phi) Qcl Qcd Qx Qy Hin ltac:(lra) ltac:(lra) ltac:(lra) ltac:(unfold kk in K; fold cl cd in K; lra)) as T.
  pose proof (rep_fun _ _ _ T Z) as F. rewrite ind_pos in F by exact Hin. unfold out_fzero in F. cbn [fst] in F.
  rewrite kp_spec in F by (exact Hin || lra). unfold cl, cd in F. fold (kk phi) in F. fold (FF phi) in F. fold cl cd in F.
  assert (K' : - 1 < kk phi) by lra. rewrite <- (hk_axial _ _ HF K' CG). set (ax := axial_pos (kk phi) (FF phi)) in *. set (lt := loading_t _ _ _ _ _ _ _ _ _) in *. set (kp := w * lt).
  assert (F' : sin phi / (1 - ax) - cos phi / (Vy / Vx) * (1 - kp) = 0) by (rewrite <- F; unfold kp, w; destruct (wakerotation _); ring).
  assert (G : sin phi * (1 / (1 - ax)) = cos phi * (Vx / Vy * (1 - kp))).
  { replace (sin phi * (1 / (1 - ax))) with (sin phi / (1 - ax)) by (unfold Rdiv; ring). replace (cos phi * (Vx / Vy * (1 - kp))) with (cos phi / (Vy / Vx) * (1 - kp)) by (field; lra). lra. }
  rewrite <- TT. apply (Rmult_eq_reg_l (cos phi)); [|lra]. rewrite <- G. set (q := 1 / (1 - ax)). field. lra.
Qed.

(** Of two zeros with lift and drag the larger one has less lift or less drag, or, with wake rotation, more drag. *)
Lemma two_zeros_drag a b : useCd (rt_opts rt) = true -> 0 < a -> a < b -> b < PI / 2 -> cut a -> cut b -> 0 <= clf (a - (t + p)) Re -> 0 <= cdf (a - (t + p)) Re ->
  rep (errf rt sc 0 (Fin a)) 0 -> rep (errf rt sc 0 (Fin b)) 0 ->
  clf (b - (t + p)) Re < clf (a - (t + p)) Re \/ cdf (b - (t + p)) Re < cdf (a - (t + p)) Re \/ (wakerotation (rt_opts rt) = true /\ cdf (a - (t + p)) Re < cdf (b - (t + p)) Re).
Proof.
  clear PL. intros UD A AB B Ka Kb L0 D0 Za Zb. destruct (Rlt_le_dec (clf (b - (t + p)) Re) (clf (a - (t + p)) Re)) as [X|M]; [left; exact X|]. destruct (Rlt_le_dec (cdf (b - (t + p)) Re) (cdf (a - (t + p)) Re)) as [X|N]; [right; left; exact X|].
  right; right. apply NNPP. intros NW.
  pose proof (zero_law_drag a UD ltac:(lra) Ka L0 D0 Za) as E1. pose proof (zero_law_drag b UD ltac:(lra) Kb ltac:(lra) ltac:(lra) Zb) as E2.
  destruct (sin_cos_pos a ltac:(lra)) as [Sa Ca]. destruct (sin_cos_pos b ltac:(lra)) as [Sb Cb].
  assert (Ta : tan a * cos a = sin a) by (unfold tan; field; lra). assert (Tb : tan b * cos b = sin b) by (unfold tan; field; lra).
  assert (TT : 0 < tan a < tan b) by (split; [apply tan_gt_0; lra|apply tan_increasing; lra]).
  assert (CC : cos b < cos a) by (apply cos_decreasing_1; lra).
  pose proof (solidity_pos (rt_B rt) chord r HB ltac:(lra) ltac:(lra)) as SP. assert (TS : 0 <= tsol) by (unfold tsol; lra).
  pose proof (lossF_unit (rt_opts rt) _ _ _ _ _ (st_inside a ltac:(lra))) as Fa. pose proof (lossF_unit (rt_opts rt) _ _ _ _ _ (st_inside b ltac:(lra))) as Fb.
  destruct (loss_falls (rt_opts rt) (rt_B rt) r Rhub Rtip a b HB Hr HT A AB B) as [L1 L2]. fold (FF a) in Fa, L1, L2. fold (FF b) in Fb, L1, L2.
  apply (angle_unique_drag (Vx / Vy) w (tan a) (tan b) (cos a) (cos b) (tsol * clf (a - (t + p)) Re) (tsol * clf (b - (t + p)) Re) (tsol * cdf (a - (t + p)) Re) (tsol * cdf (b - (t + p)) Re) (FF a) (FF b)); try lra; try assumption.
  - apply Rdiv_lt_0_compat; lra.
  - unfold w; destruct (wakerotation _); lra.
  - rewrite Ta, Tb. exact L2.
  - split; [apply Rmult_le_pos; lra|apply Rmult_le_compat_l; lra].
  - split; [apply Rmult_le_pos; lra|apply Rmult_le_compat_l; lra].
  - unfold w. destruct (wakerotation (rt_opts rt)); [right|left; reflexivity]. f_equal. destruct N as [N|N]; [elim NW; split; [reflexivity|exact N]|exact N].
Qed.
End Station.

Lemma solve_same npi bq f x : documented_bracket npi f (1 / 1000000) (npi / 2) -> bq f (Fin (1 / 1000000)) (Fin (npi / 2)) = Ok x -> solve npi bq f = Ok x.
Proof.
  intros D E. destruct (documented_bracket_exists npi f) as (lo & hi & D' & B). destruct (documented_bracket_fun _ _ _ _ _ _ D D') as [<- <-].
  unfold solve. rewrite B, E. reflexivity.
Qed.

Lemma losses_same : forall npi bq bq' (rt : rotor fl) (sc : sect fl) r chord t Vx Vy Rhub Rtip rho mu p clf cdf x x',
  3 < npi < PI -> solves bq -> solves bq' -> rt_iterRe rt = 1%nat ->
  rep (s_r sc) r -> rep (s_chord sc) chord -> rep (s_theta sc) t -> rep (s_Vx sc) Vx -> rep (s_Vy sc) Vy ->
  rep (rt_Rhub rt) Rhub -> rep (rt_Rtip rt) Rtip -> rep (rt_rho rt) rho -> rep (rt_mu rt) mu -> rep (rt_pitch rt) p ->
  computes (s_af sc) clf cdf -> mu <> 0 -> 0 < Vx -> 0 < Vy -> useCd (rt_opts rt) = false ->
  (1 <= rt_B rt)%nat -> 0 < Rhub < r -> r < Rtip -> 0 < chord ->
  rising (fun al => clf al (rho * sqrt (Vx ^ 2 + Vy ^ 2) * chord / mu)) (- (t + p)) (PI / 2 - (t + p)) ->
  documented_bracket npi (errf rt sc 0) (1 / 1000000) (npi / 2) ->
  bq (errf rt sc 0) (Fin (1 / 1000000)) (Fin (npi / 2)) = Ok x -> bq' (errf rt sc 0) (Fin (1 / 1000000)) (Fin (npi / 2)) = Ok x' ->
  (forall v, x = Fin v \/ x' = Fin v -> clear_of_guard (rt_opts rt) (rt_B rt) r chord Rhub Rtip v
    (clf (v - (t + p)) (rho * sqrt (Vx ^ 2 + Vy ^ 2) * chord / mu)) (cdf (v - (t + p)) (rho * sqrt (Vx ^ 2 + Vy ^ 2) * chord / mu))) ->
  x = x' /\ solve_station npi bq rt true sc = solve_station npi bq' rt true sc.
Proof.
  intros npi bq bq' rt sc r chord t Vx Vy Rhub Rtip rho mu p clf cdf x x' Hn [I Z] [I' Z'] Hit Qr Qc Qt Qx Qy Qh QT Qrho Qmu Qp Haf Hmu HVx HVy PL HB Hr HT Hch M D E E' KG.
  assert (O : 1 / 1000000 <= npi / 2) by lra. destruct (I _ _ _ _ O E) as (v & -> & Hv). destruct (I' _ _ _ _ O E') as (v' & -> & Hv').
  assert (V : v = v').
  { apply (zero_unique rt sc r chord t Vx Vy Rhub Rtip rho mu p clf cdf); auto; try lra; [|exact (Z _ _ _ _ E)|exact (Z' _ _ _ _ E')].
    intros a b A AB B. exact (M (a - (t + p)) (b - (t + p)) ltac:(lra) ltac:(lra) ltac:(lra)). }
  subst v'. split; [reflexivity|]. unfold solve_station. rewrite Hit. rewrite (solve_same _ _ _ _ D E), (solve_same _ _ _ _ D E'). reflexivity.
Qed.

Lemma attached_same : forall npi bq bq' (rt : rotor fl) (sc : sect fl) r chord t Vx Vy Rhub Rtip rho mu p clf cdf x x',
  3 < npi < PI -> solves bq -> solves bq' -> rt_iterRe rt = 1%nat ->
  rep (s_r sc) r -> rep (s_chord sc) chord -> rep (s_theta sc) t -> rep (s_Vx sc) Vx -> rep (s_Vy sc) Vy ->
  rep (rt_Rhub rt) Rhub -> rep (rt_Rtip rt) Rtip -> rep (rt_rho rt) rho -> rep (rt_mu rt) mu -> rep (rt_pitch rt) p ->
  computes (s_af sc) clf cdf -> mu <> 0 -> 0 < Vx -> 0 < Vy -> plain (rt_opts rt) ->
  (1 <= rt_B rt)%nat -> 0 < Rhub < r -> r < Rtip -> 0 < chord ->
  rising (fun al => clf al (rho * sqrt (Vx ^ 2 + Vy ^ 2) * chord / mu)) (- (t + p)) (PI / 2 - (t + p)) ->
  documented_bracket npi (errf rt sc 0) (1 / 1000000) (npi / 2) ->
  bq (errf rt sc 0) (Fin (1 / 1000000)) (Fin (npi / 2)) = Ok x -> bq' (errf rt sc 0) (Fin (1 / 1000000)) (Fin (npi / 2)) = Ok x' ->
  x = x' /\ solve_station npi bq rt true sc = solve_station npi bq' rt true sc.
Proof.
  intros npi bq bq' rt sc r chord t Vx Vy Rhub Rtip rho mu p clf cdf x x' Hn S S' Hit Qr Qc Qt Qx Qy Qh QT Qrho Qmu Qp Haf Hmu HVx HVy PL HB Hr HT Hch M D E E'.
  apply (losses_same npi bq bq' rt sc r chord t Vx Vy Rhub Rtip rho mu p clf cdf x x'); auto; [exact (proj1 PL)|].
  intros v _. unfold clear_of_guard. rewrite (plain_lossF _ _ _ _ _ _ PL). set (k := loading _ _ _ _ _ _ _ _ _). intros K. unfold band. rewrite Rabs_pos_eq; lra.
Qed.

(** Angles found in the first bracket. *)
Lemma found_zeros : forall npi bq (rt : rotor fl) (sc : sect fl) v, 3 < npi < PI -> solves bq -> bq (errf rt sc 0) (Fin (1 / 1000000)) (Fin (npi / 2)) = Ok (Fin v) ->
  0 < v < PI / 2 /\ rep (errf rt sc 0 (Fin v)) 0.
Proof.
  intros npi bq rt sc v Hn [I Z] E. assert (O : 1 / 1000000 <= npi / 2) by lra. destruct (I _ _ _ _ O E) as (u & U & Hu). injection U as <-. split; [lra|exact (Z _ _ _ _ E)].
Qed.
