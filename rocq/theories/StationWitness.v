(** Concrete stations used by refutations and reachability theorems (C21, C22). *)
From Coq Require Import Reals Bool Arith List Lra Lia.
From Verif Require Import Prelim Num Bem Blade BladeSpec FlProofs IndSpec IndProofs StationProofs.
Import ListNotations.
Open Scope R_scope.

(** ** Residual at a negative angle with both loss corrections off *)
Lemma residual_neg_rep o B (r chord phi cl cd Vx Vy Rhub Rtip : R) :
  tipLoss o = false -> hubLoss o = false -> r <> 0 -> phi <= 0 -> sin phi <> 0 -> cos phi <> 0 -> Vx <> 0 -> Vy <> 0 ->
  rep (out_fzero (inductionFactors o B (Fin r) (Fin chord) (Fin Rhub) (Fin Rtip) (Fin phi) (Fin cl) (Fin cd) (Fin Vx) (Fin Vy)))
      (sin phi * (1 - solidity B chord r * coef_n (useCd o) cl cd phi / (4 * sin phi ^ 2))
       - cos phi / (Vy / Vx) *
         (1 - if wakerotation o then solidity B chord r * coef_t (useCd o) cl cd phi / (4 * sin phi * cos phi) else 0)).
Proof.
  intros Ht Hh Hr Hphi Hs Hc HVx HVy. pose proof PI_RGT_0 as HP.
  assert (Ep : nlt (ofR 0) (Fin phi) = false) by (cbn; apply rltb_false; lra).
  unfold inductionFactors, out_fzero. cbn [fst]. rewrite Ep.
  change (l_k ?L) with (ndiv (ndiv (ndiv (ndiv (nmul (l_sigma_p L) (l_cn L)) (ofR 4)) (l_F L)) (l_sphi L)) (l_sphi L)).
  change (l_kp ?L) with (ndiv (ndiv (ndiv (ndiv (nmul (l_sigma_p L) (l_ct L)) (ofR 4)) (l_F L)) (l_sphi L)) (l_cphi L)).
  unfold bem_locals. rewrite Ht, Hh.
  cbn [l_sigma_p l_cn l_ct l_F l_sphi l_cphi nmul ndiv nsub nadd nsin ncos ofR fl_arith].
  set (s' := fsin (Fin phi)). set (c' := fcos (Fin phi)).
  assert (Rs : rep s' (sin phi)) by apply rep_sin, rep_Fin.
  assert (Rc : rep c' (cos phi)) by apply rep_cos, rep_Fin.
  assert (Rsig : rep (fdiv (fmul (fdiv (fdiv (Fin (INR B)) (Fin 2)) (Fin PI)) (Fin chord)) (Fin r)) (solidity B chord r)).
  { replace (solidity B chord r) with (INR B / 2 / PI * chord / r) by (unfold solidity; field; lra).
    apply rep_div; [|apply rep_Fin|assumption]. apply rep_mul; [|apply rep_Fin].
    apply rep_div; [|apply rep_Fin|lra]. apply rep_div; try apply rep_Fin; lra. }
  set (sg := fdiv (fmul _ (Fin chord)) (Fin r)) in *.
  assert (RF : rep (fmul (Fin 1) (Fin 1)) (1 * 1)) by (apply rep_mul; apply rep_Fin).
  set (F := fmul (Fin 1) (Fin 1)) in *.
  assert (Rcn : rep (if negb (useCd o) then fmul (Fin cl) c' else fadd (fmul (Fin cl) c') (fmul (Fin cd) s'))
                    (coef_n (useCd o) cl cd phi)).
  { unfold coef_n. destruct (useCd o); cbn [negb]; [apply rep_add|rewrite Rplus_0_r]; apply rep_mul; first [apply rep_Fin|assumption]. }
  assert (Rct : rep (if negb (useCd o) then fmul (Fin cl) s' else fsub (fmul (Fin cl) s') (fmul (Fin cd) c'))
                    (coef_t (useCd o) cl cd phi)).
  { unfold coef_t. destruct (useCd o); cbn [negb]; [apply rep_sub|rewrite Rminus_0_r]; apply rep_mul; first [apply rep_Fin|assumption]. }
  set (cn := if negb _ then fmul (Fin cl) c' else _) in *.
  set (ct := if negb _ then fmul (Fin cl) s' else _) in *.
  assert (Rk : rep (fdiv (fdiv (fdiv (fdiv (fmul sg cn) (Fin 4)) F) s') s')
                   (solidity B chord r * coef_n (useCd o) cl cd phi / (4 * sin phi ^ 2))).
  { replace (solidity B chord r * coef_n (useCd o) cl cd phi / (4 * sin phi ^ 2))
      with (solidity B chord r * coef_n (useCd o) cl cd phi / 4 / (1 * 1) / sin phi / sin phi) by (field; assumption).
    repeat (apply rep_div; [|first [assumption | apply rep_Fin]|first [assumption | lra]]). apply rep_mul; assumption. }
  assert (Rkp : rep (fdiv (fdiv (fdiv (fdiv (fmul sg ct) (Fin 4)) F) s') c')
                   (solidity B chord r * coef_t (useCd o) cl cd phi / (4 * sin phi * cos phi))).
  { replace (solidity B chord r * coef_t (useCd o) cl cd phi / (4 * sin phi * cos phi))
      with (solidity B chord r * coef_t (useCd o) cl cd phi / 4 / (1 * 1) / sin phi / cos phi) by (field; split; assumption).
    repeat (apply rep_div; [|first [assumption | apply rep_Fin]|first [assumption | lra]]). apply rep_mul; assumption. }
  assert (Hlam : Vy / Vx <> 0) by nz.
  apply rep_sub.
  - apply rep_mul; [assumption|]. apply rep_sub; [apply rep_Fin|exact Rk].
  - apply rep_mul.
    + apply rep_div; [assumption| |assumption]. apply rep_div; try apply rep_Fin; assumption.
    + apply rep_sub; [apply rep_Fin|]. destruct (wakerotation o); cbn [negb]; [exact Rkp|apply rep_Fin].
Qed.

(** ** A rotor without corrections: two blades, station at radius 1, unit solidity, Vx = 1, Vy = 10 *)
Definition off : bemopts := mkOpts false false false false.
Definition w_rotor : rotor fl :=
  mkRotor (Fin (1 / 2)) (Fin 3) 2 (Fin 1) (Fin 1) off 1 (Fin 0).
Definition w_sect (cl : R -> R) : sect fl :=
  mkSect (Fin 1) (Fin PI) (Fin 0)
    (fun alpha _ => match fval alpha with Some x => (Fin (cl x), Fin 0) | None => (NaN, NaN) end)
    (Fin 1) (Fin 10).

Lemma w_alpha phi : fsub (Fin phi) (fadd (Fin 0) (Fin 0)) = Fin phi.
Proof.
  unfold fsub, fadd at 2, fneg. destruct (reqb (0 + 0) 0) eqn:E; rb_hyps; [reflexivity|]. exfalso. apply E. lra.
Qed.

Lemma w_errf cl phi : errf w_rotor (w_sect cl) 0 (Fin phi) =
  out_fzero (inductionFactors off 2 (Fin 1) (Fin PI) (Fin (1 / 2)) (Fin 3) (Fin phi) (Fin (cl phi)) (Fin 0) (Fin 1) (Fin 10)).
Proof.
  unfold errf. cbn [bem_loop]. unfold bem_pass, relativeWind. cbv beta iota zeta.
  cbn [w_rotor w_sect s_Vx s_Vy s_theta s_chord s_r s_af rt_pitch rt_rho rt_mu rt_opts rt_B rt_Rhub rt_Rtip].
  cbn [nsub nadd fl_arith]. rewrite w_alpha. cbn [fval].
  destruct (inductionFactors _ _ _ _ _ _ _ _ _ _ _) as ((fz & a) & ap). reflexivity.
Qed.

Lemma w_solidity : solidity 2 PI 1 = 1.
Proof. unfold solidity. simpl INR. pose proof PI_RGT_0. field. lra. Qed.

Lemma w_lossF phi : lossF off 2 1 (1 / 2) 3 phi = 1.
Proof. unfold lossF. cbn. ring. Qed.

Lemma w_loading phi cl : loading off 2 1 PI (1 / 2) 3 phi cl 0 = cl * cos phi / (4 * sin phi ^ 2).
Proof. unfold loading. rewrite w_solidity, w_lossF. unfold coef_n; cbn [useCd off]. f_equal; ring. Qed.

Lemma w_inside phi : 0 < phi < PI -> inside 2 1 (1 / 2) 3 phi.
Proof. unfold inside. intros. repeat split; lra || lia. Qed.

(** Residual for an angle in (0, 180) degrees. *)
Lemma w_pos cl phi : 0 < phi < PI -> cos phi <> 0 -> - 1 < cl phi * cos phi / (4 * sin phi ^ 2) ->
  rep (errf w_rotor (w_sect cl) 0 (Fin phi))
      (sin phi / (1 - axial_pos (cl phi * cos phi / (4 * sin phi ^ 2)) 1) - cos phi / 10).
Proof.
  intros Hphi Hc Hk. rewrite w_errf.
  destruct (inductionFactors off 2 1 PI (1 / 2) 3 phi (cl phi) 0 1 10) as ((fz & a) & ap) eqn:E.
  destruct (ind_transfer off 2 1 PI (1 / 2) 3 phi (cl phi) 0 1 10 fz a ap) as (fz' & a' & ap' & E' & Rf & _).
  - apply w_inside; assumption.
  - assumption.
  - lra.
  - lra.
  - rewrite w_loading. assumption.
  - discriminate.
  - assumption.
  - rewrite E'. unfold out_fzero. cbn [fst].
    rewrite ind_pos in E by (apply w_inside; assumption). cbn [wakerotation off] in E.
    rewrite w_loading, w_lossF in E. injection E; intros _ _ <-.
    replace (cos phi / 10) with (cos phi / (10 / 1) * (1 - 0)) by field. assumption.
Qed.

Lemma w_neg cl phi : phi <= 0 -> sin phi <> 0 -> cos phi <> 0 ->
  rep (errf w_rotor (w_sect cl) 0 (Fin phi))
      (sin phi * (1 - cl phi * cos phi / (4 * sin phi ^ 2)) - cos phi / 10).
Proof.
  intros Hphi Hs Hc. rewrite w_errf.
  replace (sin phi * (1 - cl phi * cos phi / (4 * sin phi ^ 2)) - cos phi / 10)
    with (sin phi * (1 - solidity 2 PI 1 * coef_n (useCd off) (cl phi) 0 phi / (4 * sin phi ^ 2))
       - cos phi / (10 / 1) * (1 - if wakerotation off then solidity 2 PI 1 * coef_t (useCd off) (cl phi) 0 phi / (4 * sin phi * cos phi) else 0)).
  - apply residual_neg_rep; try reflexivity; try assumption; lra.
  - rewrite w_solidity. unfold coef_n; cbn [useCd wakerotation off]. field. assumption.
Qed.

(** Bounds for the angles used. *)
Lemma eps_trig : 0 < sin eps <= 1 / 1000000 /\ 99 / 100 <= cos eps <= 1.
Proof.
  unfold eps. pose proof PI2_1. 
  assert (0 < sin (1 / 1000000)) by (apply sin_gt_0; lra).
  assert (sin (1 / 1000000) < 1 / 1000000) by (apply sin_lt_x; lra).
  assert (0 < cos (1 / 1000000)) by (apply cos_gt_0; lra).
  pose proof (sin2_cos2 (1 / 1000000)) as S. unfold Rsqr in S.
  pose proof (COS_bound (1 / 1000000)). repeat split; nra.
Qed.

Lemma half_trig npi : 3 < npi < PI -> 0 < cos (npi / 2) < 1 / 2 /\ 8 / 10 < sin (npi / 2) <= 1.
Proof.
  intros H. pose proof PI_4. 
  assert (0 < cos (npi / 2)) by (apply cos_gt_0; lra).
  assert (cos (npi / 2) < 1 / 2).
  { rewrite <- cos_PI3. apply cos_decreasing_1; lra. }
  assert (0 < sin (npi / 2)) by (apply sin_gt_0; lra).
  pose proof (sin2_cos2 (npi / 2)) as S. unfold Rsqr in S. pose proof (SIN_bound (npi / 2)). repeat split; nra.
Qed.

Lemma quarter_trig npi : 3 < npi < PI -> 1 / 2 < sin (npi / 4) <= 1 /\ 0 < cos (npi / 4) <= 1.
Proof.
  intros H. pose proof PI_4.
  assert (1 / 2 < sin (npi / 4)).
  { rewrite <- sin_PI6. apply sin_increasing_1; lra. }
  assert (0 < cos (npi / 4)) by (apply cos_gt_0; lra).
  pose proof (SIN_bound (npi / 4)). pose proof (COS_bound (npi / 4)). lra.
Qed.

Lemma last_trig npi : 3 < npi < PI -> let p := npi - eps in 0 < p < PI /\ 0 < sin p /\ -1 <= cos p < 0.
Proof.
  intros H p. pose proof PI_4. unfold p, eps.
  assert (0 < sin (npi - 1 / 1000000)) by (apply sin_gt_0; lra).
  pose proof (COS_bound (npi - 1 / 1000000)).
  assert (cos (npi - 1 / 1000000) < 0) by (apply cos_lt_0; lra). lra.
Qed.

Lemma rep_pos x v : rep x v -> 0 < v -> pos x.
Proof. intros H Hv. apply rep_inv in H. destruct H as [->|[_ ->]]; [|lra]. apply pos_Fin; assumption. Qed.
Lemma rep_neg_sign x v : rep x v -> v < 0 -> neg x.
Proof. intros H Hv. apply rep_inv in H. destruct H as [->|[_ ->]]; [|lra]. apply neg_Fin; assumption. Qed.

(** f(eps) > 0 as soon as cl(eps) = 1. *)
Lemma w_first cl : cl eps = 1 -> pos (errf w_rotor (w_sect cl) 0 (Fin eps)).
Proof.
  intros Hcl. destruct eps_trig as ((S0 & S1) & C0 & C1). pose proof PI2_1.
  set (s := sin eps) in *. set (c := cos eps) in *.
  assert (Hk : 2 / 3 < 1 * c / (4 * s ^ 2)).
  { apply Rmult_lt_reg_r with (4 * s ^ 2); [nra|]. replace (1 * c / (4 * s ^ 2) * (4 * s ^ 2)) with c by (field; lra). nra. }
  eapply rep_pos.
  - apply w_pos; [unfold eps; lra|fold c; lra|]. rewrite Hcl. fold c s. lra.
  - rewrite Hcl. fold c s. set (k := 1 * c / (4 * s ^ 2)) in *.
    assert (Hks : 4 * s ^ 2 * k = c) by (unfold k; field; lra).
    assert (Hb : 1 / 1000000 <= Rabs (band 1 k)) by (unfold band; rewrite Rabs_right; lra).
    pose proof (axial_high k 1 Hk ltac:(lra) Hb) as Ha.
    pose proof (sqrt_g2_gt k 1 Hk ltac:(lra)) as Hq.
    assert (Hg : 0 <= g2 k 1) by (pose proof (g2_gt k 1 Hk ltac:(lra)); lra).
    pose proof (sqrt_g2_sqr k 1 Hg) as Hqq. set (q := sqrt (g2 k 1)) in *.
    assert (E : sin eps / (1 - axial_pos k 1) = s * (q + 2 / 3)).
    { fold s. rewrite Ha. field. lra. }
    change (sin eps) with s in E. rewrite E.
    assert (Hsq : (s * q) * (s * q) = c / 2 - s ^ 2 / 3).
    { replace (s * q * (s * q)) with (s ^ 2 * (q * q)) by ring. rewrite Hqq. unfold g2. rewrite <- Hks at 1. field. }
    assert (0 < s * q) by (apply Rmult_lt_0_compat; lra).
    assert (1 / 2 < s * q) by nra. nra.
Qed.

Lemma low_residual s k c : - 1 < k -> k <= 2 / 3 -> s / (1 - axial_pos k 1) - c / 10 = s * (1 + k) - c / 10.
Proof. intros H1 H2. rewrite axial_low by assumption. f_equal. field. split; lra. Qed.

(** f(pi/2) > 0 for cl = 1 and for cl = -1. *)
Lemma w_second npi cl : 3 < npi < PI -> cl (npi / 2) = 1 \/ cl (npi / 2) = -1 ->
  pos (errf w_rotor (w_sect cl) 0 (Fin (npi / 2))).
Proof.
  intros Hn Hcl. destruct (half_trig npi Hn) as ((C0 & C1) & S0 & S1).
  set (s := sin (npi / 2)) in *. set (c := cos (npi / 2)) in *.
  assert (Hk : -1 / 5 < cl (npi / 2) * c / (4 * s ^ 2) < 1 / 5).
  { assert (0 < c / (4 * s ^ 2)) by (apply Rdiv_lt_0_compat; nra).
    assert (c / (4 * s ^ 2) < 1 / 5).
    { apply Rmult_lt_reg_r with (4 * s ^ 2); [nra|]. replace (c / (4 * s ^ 2) * (4 * s ^ 2)) with c by (field; lra). nra. }
    destruct Hcl as [-> | ->]; [replace (1 * c / (4 * s ^ 2)) with (c / (4 * s ^ 2)) by (field; lra)
      |replace (-1 * c / (4 * s ^ 2)) with (- (c / (4 * s ^ 2))) by (field; lra)]; lra. }
  eapply rep_pos.
  - apply w_pos; [lra|fold c; lra|]. fold c s. lra.
  - fold c s. rewrite low_residual by lra. nra.
Qed.

(** C21 for corrections off: the second bracket is chosen for an ordinary lifting section. *)
Lemma brake_reachable npi : 3 < npi < PI ->
  documented_bracket npi (errf w_rotor (w_sect (fun _ => 1)) 0) (- npi / 4) (- (1 / 1000000)).
Proof.
  intros Hn. constructor 2.
  - left. split; [apply w_first; reflexivity|apply w_second; [assumption|left; reflexivity]].
  - destruct (quarter_trig npi Hn) as ((S0 & S1) & C0 & C1).
    replace (- npi / 4) with (- (npi / 4)) by field.
    eapply rep_neg_sign.
    + apply w_neg; [lra|rewrite sin_neg; lra|rewrite cos_neg; lra].
    + rewrite sin_neg, cos_neg. set (s := sin (npi / 4)) in *. set (c := cos (npi / 4)) in *.
      assert (1 * c / (4 * (- s) ^ 2) < 1).
      { apply Rmult_lt_reg_r with (4 * (- s) ^ 2); [nra|]. replace (1 * c / (4 * (- s) ^ 2) * (4 * (- s) ^ 2)) with c by (field; lra). nra. }
      nra.
  - destruct eps_trig as ((S0 & S1) & C0 & C1). change (1 / 1000000) with eps.
    eapply rep_pos.
    + apply w_neg; [unfold eps; lra|rewrite sin_neg; lra|rewrite cos_neg; lra].
    + rewrite sin_neg, cos_neg. set (s := sin eps) in *. set (c := cos eps) in *.
      replace (- s * (1 - 1 * c / (4 * (- s) ^ 2)) - c / 10) with (c / (4 * s) - s - c / 10) by (field; lra).
      assert (1 < c / (4 * s)); [|nra].
      apply Rmult_lt_reg_r with (4 * s); [lra|]. replace (c / (4 * s) * (4 * s)) with c by (field; lra). nra.
Qed.

(** C22, wake rotation off: a section lifting on (0, 1) rad and with negative lift elsewhere. *)
Definition cl_bump (x : R) : R := if andb (rltb 0 x) (rltb x 1) then 1 else -1.

Lemma bump_in x : 0 < x < 1 -> cl_bump x = 1.
Proof. intros H. unfold cl_bump. replace (rltb 0 x) with true by (symmetry; apply rltb_true; lra).
  replace (rltb x 1) with true by (symmetry; apply rltb_true; lra). reflexivity. Qed.
Lemma bump_out x : x <= 0 \/ 1 <= x -> cl_bump x = -1.
Proof. intros H. unfold cl_bump. destruct (rltb 0 x) eqn:E1, (rltb x 1) eqn:E2; rb_hyps; simpl; try reflexivity. lra. Qed.

Lemma bump_bracket npi : 3 < npi < PI ->
  documented_bracket npi (errf w_rotor (w_sect cl_bump) 0) (npi / 2) (npi - 1 / 1000000).
Proof.
  intros Hn. constructor 3.
  - left. split; [apply w_first, bump_in; unfold eps; lra|apply w_second; [assumption|right; apply bump_out; lra]].
  - intros [_ HP]. destruct eps_trig as ((S0 & S1) & C0 & C1). change (1 / 1000000) with eps in HP.
    assert (HN : neg (errf w_rotor (w_sect cl_bump) 0 (Fin (- eps)))).
    { eapply rep_neg_sign.
      - apply w_neg; [unfold eps; lra|rewrite sin_neg; lra|rewrite cos_neg; lra].
      - rewrite bump_out by (unfold eps; lra). rewrite sin_neg, cos_neg.
        set (s := sin eps) in *. set (c := cos eps) in *.
        replace (- s * (1 - -1 * c / (4 * (- s) ^ 2)) - c / 10) with (- (c / (4 * s)) - s - c / 10) by (field; lra).
        assert (0 < c / (4 * s)) by (apply Rdiv_lt_0_compat; lra). lra. }
    destruct HP as [E|[v [E Hv]]]; rewrite E in HN; destruct HN as [E'|[w [E' Hw]]]; try discriminate.
    injection E'; intros; subst. lra.
Qed.

Lemma bump_third npi : 3 < npi < PI ->
  same_strict_sign (errf w_rotor (w_sect cl_bump) 0 (Fin (npi / 2)))
                   (errf w_rotor (w_sect cl_bump) 0 (Fin (npi - 1 / 1000000))).
Proof.
  intros Hn. left. split; [apply w_second; [assumption|right; apply bump_out; lra]|].
  destruct (last_trig npi Hn) as (P & S0 & C0 & C1). change (npi - 1 / 1000000) with (npi - eps).
  set (p := npi - eps) in *.
  assert (Hp1 : 1 <= p) by (unfold p, eps; lra).
  assert (Hk : 0 <= cl_bump p * cos p / (4 * sin p ^ 2)).
  { rewrite bump_out by lra. apply Rlt_le, Rdiv_lt_0_compat; nra. }
  eapply rep_pos.
  - apply w_pos; [assumption|lra|]. lra.
  - set (k := cl_bump p * cos p / (4 * sin p ^ 2)) in *.
    assert (Ha : axial_pos k 1 < 1).
    { destruct (inductionFactors off 2 1 PI (1 / 2) 3 p (cl_bump p) 0 1 10) as ((fz & a) & ap) eqn:E.
      pose proof (a_below_one off 2 1 PI (1 / 2) 3 p (cl_bump p) 0 1 10 fz a ap (w_inside p P) E) as H.
      cbv zeta in H. rewrite w_loading in H. fold k in H. destruct (H ltac:(lra)) as (H1 & _).
      pose proof (ind_pos_a off 2 1 PI (1 / 2) 3 p (cl_bump p) 0 1 10 (w_inside p P)) as H2.
      rewrite E, w_loading, w_lossF in H2. unfold out_a in H2. cbn [fst snd] in H2. fold k in H2. rewrite <- H2. assumption. }
    assert (0 < sin p / (1 - axial_pos k 1)) by (apply Rdiv_lt_0_compat; lra). lra.
Qed.

Lemma fdiv_neg_zero x : neg x -> fdiv x (Fin 0) = NInf.
Proof.
  intros [->|[v [-> Hv]]]; unfold fdiv; simpl.
  - replace (rltb 0 0) with false by (symmetry; apply rltb_false; lra). reflexivity.
  - replace (reqb 0 0) with true by (symmetry; apply reqb_true; reflexivity).
    destruct (reqb v 0) eqn:E; rb_hyps; [lra|].
    replace (rltb v 0) with true by (symmetry; apply rltb_true; lra).
    replace (rltb 0 0) with false by (symmetry; apply rltb_false; lra). reflexivity.
Qed.

(** At the fallback angle this section has no induction and a finite, non-zero load. *)
Lemma bump_zero_angle : exists fz,
  inductionFactors off 2 (Fin 1) (Fin PI) (Fin (1 / 2)) (Fin 3) (Fin 0) (Fin (-1)) (Fin 0) (Fin 1) (Fin 10) = (fz, Fin 0, Fin 0).
Proof.
  unfold inductionFactors.
  assert (Ep : nlt (ofR 0) (Fin 0) = false) by (cbn; apply rltb_false; lra). rewrite Ep.
  cbn [wakerotation off negb].
  assert (EK : l_k (bem_locals off 2 (Fin 1) (Fin PI) (Fin (1 / 2)) (Fin 3) (Fin 0) (Fin (-1)) (Fin 0)) = NInf).
  { change (l_k ?L) with (ndiv (ndiv (ndiv (ndiv (nmul (l_sigma_p L) (l_cn L)) (ofR 4)) (l_F L)) (l_sphi L)) (l_sphi L)).
    unfold bem_locals. cbn [l_sigma_p l_cn l_F l_sphi useCd tipLoss hubLoss off negb nmul ndiv nsin ncos ofR fl_arith fsin fcos].
    rewrite sin_0, cos_0. pose proof PI_RGT_0.
    apply fdiv_neg_zero. left. apply fdiv_neg_zero.
    apply rep_neg_sign with (v := INR 2 / 2 / PI * PI / 1 * (-1 * 1) / 4 / (1 * 1)).
    - apply rep_div; [|apply rep_mul; apply rep_Fin|lra]. apply rep_div; [|apply rep_Fin|lra].
      apply rep_mul; [|apply rep_mul; apply rep_Fin]. apply rep_div; [|apply rep_Fin|lra].
      apply rep_mul; [|apply rep_Fin]. apply rep_div; [|apply rep_Fin|lra]. apply rep_div; [apply rep_Fin|apply rep_Fin|lra].
    - simpl INR. replace ((1 + 1) / 2 / PI * PI / 1 * (-1 * 1) / 4 / (1 * 1)) with (- (1 / 4)) by (field; lra). lra. }
  rewrite EK. eexists. unfold axial_neg. cbn [nlt ofR fl_arith flt]. reflexivity.
Qed.

Lemma bump_loads l : loads w_rotor (Fin 0) true (w_sect cl_bump) = Ok l -> exists v, o_Np l = Fin v /\ v < 0.
Proof.
  unfold loads. cbn [w_rotor w_sect s_Vx s_Vy]. cbn [neq ofR fl_arith].
  assert (E1 : feq (Fin 1) (Fin 0) = false) by (cbn; apply reqb_false; lra).
  assert (E2 : feq (Fin 10) (Fin 0) = false) by (cbn; apply reqb_false; lra).
  rewrite E1, E2. cbn [negb andb]. unfold runBEM.
  change (rt_iterRe w_rotor) with 1%nat. cbn [bind bem_loop]. unfold bem_pass at 1.
  intros E. apply bind_ok in E. destruct E as ((((a & ap) & cl) & cd) & EA & E).
  unfold relativeWind at 1 in EA. cbv beta iota zeta in EA.
  cbn [w_rotor w_sect s_Vx s_Vy s_theta s_chord s_r s_af rt_pitch rt_rho rt_mu rt_opts rt_B rt_Rhub rt_Rtip] in EA.
  cbn [nsub nadd ofR fl_arith] in EA. rewrite w_alpha in EA. cbn [fval] in EA.
  rewrite bump_out in EA by lra. destruct bump_zero_angle as (fz & EZ). rewrite EZ in EA.
  apply ok_inj in EA. injection EA; intros <- <- <- <-. clear EA EZ.
  apply ok_inj in E. rewrite <- E. cbn [o_Np].
  cbn [w_rotor w_sect s_Vx s_Vy s_theta s_chord s_r s_af rt_pitch rt_rho rt_mu].
  assert (R1 : rep (nmul (nmul (nadd (nmul (Fin (-1)) (ncos (ofR 0))) (nmul (Fin 0) (nsin (ofR 0))))
     (nmul (nmul (ofR (1 / 2)) (Fin 1))
        (nmul (nsqrt (nadd (nmul (nmul (Fin 1) (nsub (ofR 1) (Fin 0))) (nmul (Fin 1) (nsub (ofR 1) (Fin 0))))
                  (nmul (nmul (Fin 10) (nadd (ofR 1) (Fin 0))) (nmul (Fin 10) (nadd (ofR 1) (Fin 0))))))
              (nsqrt (nadd (nmul (nmul (Fin 1) (nsub (ofR 1) (Fin 0))) (nmul (Fin 1) (nsub (ofR 1) (Fin 0))))
                  (nmul (nmul (Fin 10) (nadd (ofR 1) (Fin 0))) (nmul (Fin 10) (nadd (ofR 1) (Fin 0))))))))) (Fin PI))
    ((-1 * cos 0 + 0 * sin 0) * (1 / 2 * 1 *
       (sqrt (1 * (1 - 0) * (1 * (1 - 0)) + 10 * (1 + 0) * (10 * (1 + 0)))
       * sqrt (1 * (1 - 0) * (1 * (1 - 0)) + 10 * (1 + 0) * (10 * (1 + 0))))) * PI)).
  { cbn [nmul nadd nsub nsqrt ncos nsin ofR fl_arith].
    repeat first [apply rep_Fin | apply rep_mul | apply rep_neg | apply rep_add | apply rep_sub | apply rep_cos | apply rep_sin
                 | apply rep_sqrt; [|lra] ]. }
  match type of R1 with rep ?x _ => match goal with |- exists v, ?y = _ /\ _ => assert (EY : y = x) end end.
  { unfold relativeWind. cbn [nlt nabs ofR fl_arith fabs flt fval]. rewrite Rabs_R0.
    replace (rltb 10 0) with false by (symmetry; apply rltb_false; lra). reflexivity. }
  rewrite EY. rewrite sqrt_sqrt in R1 by lra. rewrite cos_0 in R1.
  replace ((-1 * 1 + 0 * sin 0) * (1 / 2 * 1 * (1 * (1 - 0) * (1 * (1 - 0)) + 10 * (1 + 0) * (10 * (1 + 0)))) * PI)
    with (- (101 / 2 * PI)) in R1 by (cbn; field).
  pose proof PI_RGT_0. apply rep_inv in R1. destruct R1 as [->|[_ E9]]; [|lra]. eexists. split; [reflexivity|]. lra.
Qed.

Lemma failed_without_wake : forall npi bq, 3 < npi < PI -> rejects_same_sign bq ->
  let sc := w_sect cl_bump in
  wakerotation (rt_opts w_rotor) = false /\
  (exists lo hi, documented_bracket npi (errf w_rotor sc 0) lo hi /\
     bq (errf w_rotor sc 0) (Fin lo) (Fin hi) = Raise ValueError) /\
  exists l v, solve_station npi bq w_rotor true sc = Ok l /\ o_Np l = Fin v /\ v < 0.
Proof.
  intros npi bq Hn Hrej sc. split; [reflexivity|].
  pose proof (bump_bracket npi Hn) as D. pose proof (Hrej _ _ _ (bump_third npi Hn)) as HR. fold sc in D, HR. split.
  - eexists; eexists. split; [exact D|exact HR].
  - destruct (failed_solve_returns npi bq w_rotor sc 0 _ _ eq_refl D HR) as (l & E).
    pose proof E as E'. unfold solve_station in E'. cbn [rt_iterRe w_rotor] in E'. fold w_rotor in E'.
    destruct (documented_bracket_exists npi (errf w_rotor sc 0)) as (a & b & D' & EB).
    destruct (documented_bracket_fun _ _ _ _ _ _ D D') as [<- <-].
    unfold solve in E'. rewrite EB in E'. rewrite HR in E'. cbn [bind] in E'. apply bind_ok in E'.
    destruct E' as (l0 & H1 & H2). destruct (bump_loads l0 H1) as (v & Hv & Hneg).
    apply nan_guard_cases in H2. destruct H2 as [[_ ->]|[HN _]].
    + exists l0, v. auto.
    + rewrite Hv in HN. unfold isnan in HN. cbn in HN.
      replace (reqb v v) with true in HN by (symmetry; apply reqb_true; reflexivity). discriminate.
Qed.
