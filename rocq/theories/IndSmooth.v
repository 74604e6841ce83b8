(** Differentiability of the axial induction across the momentum/Buhl switch. *)
From Coquelicot Require Import Coquelicot.
From Coq Require Import Reals Bool Arith Lia Lra.
From Verif Require Import Prelim Num Bem IndSpec IndProofs.
Open Scope R_scope.

(** ** Gluing two functions with the same value and derivative *)
Lemma glue_derive (f f1 f2 : R -> R) t0 d :
  locally t0 (fun t => f t = f1 t \/ f t = f2 t) ->
  f t0 = f1 t0 -> f t0 = f2 t0 -> is_derive f1 t0 d -> is_derive f2 t0 d -> is_derive f t0 d.
Proof.
  intros [del0 Hl] E1 E2 H1 H2. apply is_derive_Reals. apply is_derive_Reals in H1. apply is_derive_Reals in H2.
  intros eps Heps. destruct (H1 eps Heps) as [del1 Hd1]. destruct (H2 eps Heps) as [del2 Hd2].
  assert (Hm : 0 < Rmin del0 (Rmin del1 del2)).
  { apply Rmin_glb_lt; [apply cond_pos|]. apply Rmin_glb_lt; apply cond_pos. }
  exists (mkposreal _ Hm). intros h Hh Hlt. simpl in Hlt.
  assert (L0 : Rabs h < del0) by (eapply Rlt_le_trans; [exact Hlt|apply Rmin_l]).
  assert (L1 : Rabs h < del1) by (eapply Rlt_le_trans; [exact Hlt|]; eapply Rle_trans; [apply Rmin_r|apply Rmin_l]).
  assert (L2 : Rabs h < del2) by (eapply Rlt_le_trans; [exact Hlt|]; eapply Rle_trans; [apply Rmin_r|apply Rmin_r]).
  destruct (Hl (t0 + h)) as [E|E].
  - unfold ball; simpl; unfold AbsRing_ball, abs, minus, plus, opp; simpl.
    replace (t0 + h + - t0) with h by ring. exact L0.
  - rewrite E, E1. apply Hd1; assumption.
  - rewrite E, E2. apply Hd2; assumption.
Qed.

(** Derivatives of functions that agree on one side are equal. *)
Lemma side_derive (f g : R -> R) x d d' (sgn : R) : sgn = 1 \/ sgn = - 1 ->
  is_derive f x d -> is_derive g x d' ->
  (exists del, 0 < del /\ forall h, 0 <= h < del -> f (x + sgn * h) = g (x + sgn * h)) -> d = d'.
Proof.
  intros Hsg Hf Hg (del & Hdel & Hag).
  apply is_derive_Reals in Hf. apply is_derive_Reals in Hg.
  destruct (Req_dec d d') as [|Hne]; [assumption|exfalso].
  assert (He : 0 < Rabs (d - d') / 2) by (pose proof (Rabs_pos_lt (d - d') ltac:(lra)); lra).
  destruct (Hf _ He) as [d1 H1]. destruct (Hg _ He) as [d2 H2].
  pose proof (cond_pos d1). pose proof (cond_pos d2).
  set (h := Rmin del (Rmin d1 d2) / 2).
  assert (Hh : 0 < h /\ h < del /\ h < d1 /\ h < d2).
  { assert (0 < Rmin del (Rmin d1 d2)) by (repeat apply Rmin_glb_lt; assumption).
    pose proof (Rmin_l del (Rmin d1 d2)). pose proof (Rmin_r del (Rmin d1 d2)).
    pose proof (Rmin_l d1 d2). pose proof (Rmin_r d1 d2). unfold h. lra. }
  destruct Hh as (h0 & h1 & h2 & h3).
  assert (Hnz : sgn * h <> 0) by (destruct Hsg; subst; lra).
  assert (Hab : Rabs (sgn * h) = h).
  { destruct Hsg; subst sgn; rewrite Rabs_mult, (Rabs_right h) by lra;
      [rewrite Rabs_R1|rewrite Rabs_left by lra]; ring. }
  specialize (H1 (sgn * h) Hnz ltac:(lra)). specialize (H2 (sgn * h) Hnz ltac:(lra)).
  pose proof (Hag h ltac:(lra)) as A1. pose proof (Hag 0 ltac:(lra)) as A0.
  rewrite Rmult_0_r, Rplus_0_r in A0. rewrite A1, A0 in H1.
  set (q := (g (x + sgn * h) - g x) / (sgn * h)) in *.
  assert (Rabs (d - d') <= Rabs (q - d) + Rabs (q - d')).
  { replace (d - d') with (- (q - d) + (q - d')) by ring.
    eapply Rle_trans; [apply Rabs_triang|]. rewrite Rabs_Ropp. lra. }
  lra.
Qed.

(** ** Partial derivatives on both sides *)
Definition Dk_hi (k F : R) : R :=
  F / sqrt (g2 k F) / ((sqrt (g2 k F) + 5 / 3 - F) * (sqrt (g2 k F) + 5 / 3 - F)).
Definition DF_hi (k F : R) : R :=
  ((k - 2 / 3 + F) / sqrt (g2 k F) - 1) / ((sqrt (g2 k F) + 5 / 3 - F) * (sqrt (g2 k F) + 5 / 3 - F)).
Definition Dk_lo (k : R) : R := / ((1 + k) * (1 + k)).

Definition Dk (k F : R) : R := if rleb k (2 / 3) then Dk_lo k else Dk_hi k F.
Definition DF (k F : R) : R := if rleb k (2 / 3) then 0 else DF_hi k F.

Lemma hi_derive (k F : R -> R) t k' F' :
  is_derive k t k' -> is_derive F t F' ->
  0 < g2 (k t) (F t) -> sqrt (g2 (k t) (F t)) + 5 / 3 - F t <> 0 ->
  is_derive (fun t => 1 - 1 / (sqrt (g2 (k t) (F t)) + 5 / 3 - F t)) t
    (Dk_hi (k t) (F t) * k' + DF_hi (k t) (F t) * F').
Proof.
  intros Hk HF Hg Hu.
  assert (Hq : 0 < sqrt (g2 (k t) (F t))) by (apply sqrt_lt_R0; assumption).
  unfold g2 in *.
  auto_derive.
  - repeat split; first [eexists; eassumption | exact Hg | exact Hu].
  - change (2 * F t * k t + - ((4 / 3 + - F t) * F t)) with (2 * F t * k t - (4 / 3 - F t) * F t).
    replace (Derive (fun x : R => F x) t) with F' by (symmetry; exact (is_derive_unique _ _ _ HF)).
    replace (Derive (fun x : R => k x) t) with k' by (symmetry; exact (is_derive_unique _ _ _ Hk)).
    unfold Dk_hi, DF_hi, g2. set (q := sqrt _) in *. field. split; lra.
Qed.

Lemma lo_derive (k : R -> R) t k' : is_derive k t k' -> 1 + k t <> 0 ->
  is_derive (fun t => k t / (1 + k t)) t (Dk_lo (k t) * k').
Proof.
  intros Hk Hn. auto_derive.
  - repeat split; first [eexists; eassumption | assumption].
  - replace (Derive (fun x : R => k x) t) with k' by (symmetry; exact (is_derive_unique _ _ _ Hk)).
    unfold Dk_lo. field. assumption.
Qed.

(** ** Neighbourhood of the switch *)
Lemma cont2_pos f x y : continuity_2d_pt f x y -> 0 < f x y -> locally_2d (fun u v => 0 < f u v) x y.
Proof.
  intros Hc Hp. specialize (Hc (mkposreal _ Hp)). revert Hc. apply locally_2d_impl, locally_2d_forall.
  simpl. intros u v Hab. apply Rabs_def2 in Hab. lra.
Qed.

Lemma cont2_rat k0 F0 :
  continuity_2d_pt g2 k0 F0 /\ continuity_2d_pt (fun k F => band F k) k0 F0.
Proof.
  assert (C : forall c, continuity_2d_pt (fun _ _ => c) k0 F0) by (intros; apply continuity_2d_pt_const).
  pose proof (continuity_2d_pt_id1 k0 F0) as Ck. pose proof (continuity_2d_pt_id2 k0 F0) as CF.
  unfold g2, band. split.
  - apply continuity_2d_pt_minus.
    + repeat apply continuity_2d_pt_mult; auto.
    + apply continuity_2d_pt_mult; [apply continuity_2d_pt_minus|]; auto.
  - apply continuity_2d_pt_minus.
    + repeat apply continuity_2d_pt_mult; auto.
    + apply continuity_2d_pt_minus; auto. apply continuity_2d_pt_mult; auto.
Qed.

Lemma cont2_sqrt_g2 k0 F0 : 0 < g2 k0 F0 -> continuity_2d_pt (fun k F => sqrt (g2 k F)) k0 F0.
Proof.
  intros Hg. apply (continuity_1d_2d_pt_comp sqrt g2); [|apply cont2_rat].
  apply continuity_pt_sqrt. lra.
Qed.

Lemma cont2_u k0 F0 : 0 < g2 k0 F0 -> continuity_2d_pt (fun k F => sqrt (g2 k F) + 5 / 3 - F) k0 F0.
Proof.
  intros Hg. apply continuity_2d_pt_minus; [|apply continuity_2d_pt_id2].
  apply continuity_2d_pt_plus; [apply cont2_sqrt_g2; assumption|apply continuity_2d_pt_const].
Qed.

Lemma g2_switch F : g2 (2 / 3) F = F ^ 2.
Proof. unfold g2. field. Qed.

Lemma cont2_Dhi F0 : 0 < F0 -> continuity_2d_pt Dk_hi (2 / 3) F0 /\ continuity_2d_pt DF_hi (2 / 3) F0.
Proof.
  intros HF.
  assert (Hg : 0 < g2 (2 / 3) F0) by (rewrite g2_switch; apply pow_lt; assumption).
  assert (Hq : sqrt (g2 (2 / 3) F0) = F0) by (rewrite g2_switch; apply sqrt_pow2; lra).
  assert (Hu : sqrt (g2 (2 / 3) F0) + 5 / 3 - F0 = 5 / 3) by (rewrite Hq; ring).
  pose proof (cont2_sqrt_g2 _ _ Hg) as Cq. pose proof (cont2_u _ _ Hg) as Cu.
  pose proof (continuity_2d_pt_id1 (2 / 3) F0) as Ck. pose proof (continuity_2d_pt_id2 (2 / 3) F0) as CF.
  assert (Ci : continuity_2d_pt (fun k F => / ((sqrt (g2 k F) + 5 / 3 - F) * (sqrt (g2 k F) + 5 / 3 - F))) (2 / 3) F0).
  { apply continuity_2d_pt_inv; [apply continuity_2d_pt_mult; assumption|]. rewrite Hu. lra. }
  assert (Cqi : continuity_2d_pt (fun k F => / sqrt (g2 k F)) (2 / 3) F0).
  { apply continuity_2d_pt_inv; [assumption|]. rewrite Hq. lra. }
  unfold Dk_hi, DF_hi, Rdiv. split.
  - apply continuity_2d_pt_mult; [|exact Ci]. apply continuity_2d_pt_mult; assumption.
  - apply continuity_2d_pt_mult; [|exact Ci].
    apply continuity_2d_pt_minus; [|apply continuity_2d_pt_const].
    apply continuity_2d_pt_mult; [|exact Cqi].
    apply continuity_2d_pt_plus; [|assumption]. apply continuity_2d_pt_minus; [assumption|apply continuity_2d_pt_const].
Qed.

Lemma Dhi_switch F0 : 0 < F0 -> Dk_hi (2 / 3) F0 = 9 / 25 /\ DF_hi (2 / 3) F0 = 0.
Proof.
  intros HF. assert (Hq : sqrt (g2 (2 / 3) F0) = F0) by (rewrite g2_switch; apply sqrt_pow2; lra).
  unfold Dk_hi, DF_hi. rewrite Hq. split; field; lra.
Qed.

Lemma cont2_glue (f f1 f2 : R -> R -> R) x y : f x y = f1 x y -> f1 x y = f2 x y ->
  (forall u v, f u v = f1 u v \/ f u v = f2 u v) ->
  continuity_2d_pt f1 x y -> continuity_2d_pt f2 x y -> continuity_2d_pt f x y.
Proof.
  intros E1 E2 Hc C1 C2 eps. specialize (C1 eps). specialize (C2 eps).
  pose proof (locally_2d_and _ _ _ _ C1 C2) as C. revert C. apply locally_2d_impl, locally_2d_forall.
  intros u v [A1 A2]. destruct (Hc u v) as [E|E]; rewrite E, E1; [assumption|rewrite E2; assumption].
Qed.

Lemma cont2_D F0 : 0 < F0 -> continuity_2d_pt Dk (2 / 3) F0 /\ continuity_2d_pt DF (2 / 3) F0 /\
  Dk (2 / 3) F0 = 9 / 25 /\ DF (2 / 3) F0 = 0.
Proof.
  intros HF. destruct (cont2_Dhi F0 HF) as [C1 C2]. destruct (Dhi_switch F0 HF) as [E1 E2].
  assert (L : Dk_lo (2 / 3) = 9 / 25) by (unfold Dk_lo; field).
  assert (E3 : Dk (2 / 3) F0 = 9 / 25) by (unfold Dk; rb_if; lra).
  assert (E4 : DF (2 / 3) F0 = 0) by (unfold DF; rb_if; lra).
  split; [|split; [|split; assumption]].
  - apply (cont2_glue Dk (fun k _ => Dk_lo k) Dk_hi); try lra; [| |assumption].
    + intros u v. unfold Dk. rb_if; auto.
    + unfold Dk_lo. apply continuity_2d_pt_inv; [|lra].
      assert (continuity_2d_pt (fun k _ : R => 1 + k) (2 / 3) F0)
        by (apply continuity_2d_pt_plus; [apply continuity_2d_pt_const|apply continuity_2d_pt_id1]).
      apply continuity_2d_pt_mult; assumption.
  - apply (cont2_glue DF (fun _ _ => 0) DF_hi); try lra; [| |assumption].
    + intros u v. unfold DF. rb_if; auto.
    + apply continuity_2d_pt_const.
Qed.

(** Good points: everything needed for the derivative holds. *)
Definition good (k F : R) : Prop :=
  0 < 1 + k /\ 0 < g2 k F /\ 0 < sqrt (g2 k F) + 5 / 3 - F /\ 1 / 1000000 < Rabs (band F k).

Lemma good_near F0 : 0 < F0 -> 1 / 1000000 < Rabs (band F0 (2 / 3)) -> locally_2d good (2 / 3) F0.
Proof.
  intros HF Hb.
  assert (Hg : 0 < g2 (2 / 3) F0) by (rewrite g2_switch; apply pow_lt; assumption).
  assert (Hq : sqrt (g2 (2 / 3) F0) = F0) by (rewrite g2_switch; apply sqrt_pow2; lra).
  repeat apply locally_2d_and.
  - apply (cont2_pos (fun k _ => 1 + k)); [|lra].
    apply continuity_2d_pt_plus; [apply continuity_2d_pt_const|apply continuity_2d_pt_id1].
  - apply (cont2_pos g2); [apply cont2_rat|assumption].
  - apply (cont2_pos (fun k F => sqrt (g2 k F) + 5 / 3 - F)); [apply cont2_u; assumption|rewrite Hq; lra].
  - assert (C : continuity_2d_pt (fun k F => Rabs (band F k) - 1 / 1000000) (2 / 3) F0).
    { apply continuity_2d_pt_minus; [|apply continuity_2d_pt_const].
      apply (continuity_1d_2d_pt_comp Rabs (fun k F => band F k)); [apply Rcontinuity_abs|apply cont2_rat]. }
    pose proof (cont2_pos _ _ _ C ltac:(lra)) as P. revert P. apply locally_2d_impl, locally_2d_forall.
    intros u v. lra.
Qed.

(** Along any curve, near a good point the axial induction is one of the two formulas. *)
Lemma good_open k F : good k F -> locally_2d good k F.
Proof.
  intros (H1 & H2 & H3 & H4). repeat apply locally_2d_and.
  - apply (cont2_pos (fun k _ => 1 + k)); [|assumption].
    apply continuity_2d_pt_plus; [apply continuity_2d_pt_const|apply continuity_2d_pt_id1].
  - apply (cont2_pos g2); [apply cont2_rat|assumption].
  - apply (cont2_pos (fun k F => sqrt (g2 k F) + 5 / 3 - F)); [apply cont2_u; assumption|assumption].
  - assert (C : continuity_2d_pt (fun k F => Rabs (band F k) - 1 / 1000000) k F).
    { apply continuity_2d_pt_minus; [|apply continuity_2d_pt_const].
      apply (continuity_1d_2d_pt_comp Rabs (fun k F => band F k)); [apply Rcontinuity_abs|apply cont2_rat]. }
    pose proof (cont2_pos _ _ _ C ltac:(lra)) as P. revert P. apply locally_2d_impl, locally_2d_forall.
    intros u v. lra.
Qed.

Lemma good_hi k F : good k F -> 2 / 3 < k -> axial_pos k F = 1 - 1 / (sqrt (g2 k F) + 5 / 3 - F).
Proof.
  intros (H1 & H2 & H3 & H4) Hk. rewrite axial_pos_R. rb_if; [lra|]. rb_if; [lra|].
  apply buhl_root; [lra|assumption|]. intros E9. rewrite E9, Rabs_R0 in H4. lra.
Qed.

Lemma curve_locally (P : R -> R -> Prop) (k F : R -> R) t k' F' :
  is_derive k t k' -> is_derive F t F' -> locally_2d P (k t) (F t) -> locally t (fun s => P (k s) (F s)).
Proof.
  intros Hk HF [del HP].
  assert (Ck : continuous k t) by (apply (ex_derive_continuous k t); eexists; exact Hk).
  assert (CF : continuous F t) by (apply (ex_derive_continuous F t); eexists; exact HF).
  assert (L1 : locally t (fun s => ball (k t) del (k s))) by (apply (Ck (fun y => ball (k t) del y)); apply locally_ball).
  assert (L2 : locally t (fun s => ball (F t) del (F s))) by (apply (CF (fun y => ball (F t) del y)); apply locally_ball).
  generalize (filter_and _ _ L1 L2). apply filter_imp. intros s [A1 A2]. apply HP; assumption.
Qed.

Lemma axial_curve (k F : R -> R) t k' F' :
  is_derive k t k' -> is_derive F t F' -> good (k t) (F t) -> (k t = 2 / 3 -> 0 < F t) ->
  is_derive (fun s => axial_pos (k s) (F s)) t (Dk (k t) (F t) * k' + DF (k t) (F t) * F').
Proof.
  intros Hk HF Hg HF0.
  pose proof (curve_locally good k F t k' F' Hk HF (good_open _ _ Hg)) as Lg.
  pose proof Hg as (H1 & H2 & H3 & H4).
  pose proof (lo_derive k t k' Hk ltac:(lra)) as Dlo.
  pose proof (hi_derive k F t k' F' Hk HF H2 ltac:(lra)) as Dhi.
  destruct (Rtotal_order (k t) (2 / 3)) as [Hlt|[Heq|Hgt]].
  - assert (L : locally_2d (fun u _ => 0 < 2 / 3 - u) (k t) (F t)).
    { apply (cont2_pos (fun u _ => 2 / 3 - u)); [|lra].
      apply continuity_2d_pt_minus; [apply continuity_2d_pt_const|apply continuity_2d_pt_id1]. }
    apply (curve_locally _ k F t k' F' Hk HF) in L.
    apply (is_derive_ext_loc (fun s => k s / (1 + k s))).
    + revert L. apply filter_imp. intros s Hs. symmetry. apply axial_low. lra.
    + unfold Dk, DF. rb_if; [|lra]. rewrite Rmult_0_l, Rplus_0_r. exact Dlo.
  - specialize (HF0 Heq).
    assert (ED : Dk (k t) (F t) * k' + DF (k t) (F t) * F' = 9 / 25 * k').
    { rewrite Heq. destruct (cont2_D (F t) HF0) as (_ & _ & -> & ->). ring. }
    rewrite ED.
    assert (E1 : Dk_lo (k t) * k' = 9 / 25 * k') by (rewrite Heq; unfold Dk_lo; field).
    assert (E2 : Dk_hi (k t) (F t) * k' + DF_hi (k t) (F t) * F' = 9 / 25 * k').
    { rewrite Heq. destruct (Dhi_switch (F t) HF0) as [-> ->]. ring. }
    rewrite E1 in Dlo. rewrite E2 in Dhi.
    apply (glue_derive _ (fun s => k s / (1 + k s)) (fun s => 1 - 1 / (sqrt (g2 (k s) (F s)) + 5 / 3 - F s))); try assumption.
    + revert Lg. apply filter_imp. intros s Hs. destruct (Rlt_le_dec (2 / 3) (k s)).
      * right. apply good_hi; assumption.
      * left. apply axial_low; assumption.
    + apply axial_low. lra.
    + rewrite axial_low by lra. rewrite Heq, g2_switch, sqrt_pow2 by lra. field. lra.
  - assert (L : locally_2d (fun u _ => 0 < u - 2 / 3) (k t) (F t)).
    { apply (cont2_pos (fun u _ => u - 2 / 3)); [|lra].
      apply continuity_2d_pt_minus; [apply continuity_2d_pt_id1|apply continuity_2d_pt_const]. }
    apply (curve_locally _ k F t k' F' Hk HF) in L.
    apply (is_derive_ext_loc (fun s => 1 - 1 / (sqrt (g2 (k s) (F s)) + 5 / 3 - F s))).
    + generalize (filter_and _ _ L Lg). apply filter_imp. intros s [Hs Hgs]. symmetry. apply good_hi; [assumption|lra].
    + unfold Dk, DF. rb_if; [lra|]. exact Dhi.
Qed.

(** ** Along curves of the section inputs *)
Lemma a_smooth : forall F0, 0 < F0 <= 1 -> 1 / 1000000 < Rabs (band F0 (2 / 3)) ->
  exists Dk DF : R -> R -> R,
    continuity_2d_pt Dk (2 / 3) F0 /\ continuity_2d_pt DF (2 / 3) F0 /\
    Dk (2 / 3) F0 = 9 / 25 /\ DF (2 / 3) F0 = 0 /\
    locally_2d (fun k F => forall o B (r chord Rhub Rtip phi cl cd Vx Vy : R -> R) t k' F',
      locally t (fun s => inside B (r s) (Rhub s) (Rtip s) (phi s)) ->
      loading o B (r t) (chord t) (Rhub t) (Rtip t) (phi t) (cl t) (cd t) = k ->
      lossF o B (r t) (Rhub t) (Rtip t) (phi t) = F ->
      is_derive (fun s => loading o B (r s) (chord s) (Rhub s) (Rtip s) (phi s) (cl s) (cd s)) t k' ->
      is_derive (fun s => lossF o B (r s) (Rhub s) (Rtip s) (phi s)) t F' ->
      is_derive (fun s => out_a (inductionFactors o B (r s) (chord s) (Rhub s) (Rtip s) (phi s)
                                   (cl s) (cd s) (Vx s) (Vy s))) t (Dk k F * k' + DF k F * F')) (2 / 3) F0.
Proof.
  intros F0 HF Hb. exists Dk, DF. destruct (cont2_D F0 ltac:(lra)) as (C1 & C2 & C3 & C4).
  repeat (split; [assumption|]).
  generalize (good_near F0 ltac:(lra) Hb). apply locally_2d_impl, locally_2d_forall.
  intros k F Hg o B r chord Rhub Rtip phi cl cd Vx Vy t k' F' Hin Ek EF Dk' DF'.
  apply (is_derive_ext_loc (fun s => axial_pos (loading o B (r s) (chord s) (Rhub s) (Rtip s) (phi s) (cl s) (cd s))
                                               (lossF o B (r s) (Rhub s) (Rtip s) (phi s)))).
  - revert Hin. apply filter_imp. intros s Hs. symmetry. apply ind_pos_a. assumption.
  - rewrite <- Ek, <- EF.
    apply (axial_curve (fun s => loading o B (r s) (chord s) (Rhub s) (Rtip s) (phi s) (cl s) (cd s))
             (fun s => lossF o B (r s) (Rhub s) (Rtip s) (phi s)) t k' F'); try assumption.
    + rewrite Ek, EF. assumption.
    + intros _. apply locally_singleton in Hin. apply (lossF_unit o _ _ _ _ _ Hin).
Qed.

(** ** At loss factor 5/6 the guard band covers the switch: a kink *)
Definition kink_opts : bemopts := mkOpts true false true true.
Definition kink_Rtip : R := 1 - ln (cos (5 * PI / 12)).

Lemma cos_5_12 : 0 < cos (5 * PI / 12) < 1.
Proof.
  pose proof PI_RGT_0. split; [apply cos_gt_0; lra|].
  rewrite <- cos_0. apply cos_decreasing_1; lra.
Qed.

Lemma kink_inside : inside 2 1 (1 / 2) kink_Rtip (PI / 2).
Proof.
  pose proof PI_RGT_0. pose proof cos_5_12 as Hc.
  assert (ln (cos (5 * PI / 12)) < 0) by (rewrite <- ln_1; apply ln_increasing; lra).
  unfold inside, kink_Rtip. repeat split; try lra. lia.
Qed.

Lemma kink_F : lossF kink_opts 2 1 (1 / 2) kink_Rtip (PI / 2) = 5 / 6.
Proof.
  pose proof PI_RGT_0. pose proof cos_5_12 as Hc. unfold lossF, kink_opts, prandtl; cbn [tipLoss hubLoss].
  rewrite sin_PI2.
  replace (- (INR 2 * (kink_Rtip - 1) / (2 * 1 * 1))) with (ln (cos (5 * PI / 12))).
  - rewrite exp_ln by lra. rewrite acos_cos by lra. field. lra.
  - unfold kink_Rtip. simpl. field.
Qed.

Lemma kink_k cd : loading kink_opts 2 1 PI (1 / 2) kink_Rtip (PI / 2) 0 cd = 3 / 10 * cd.
Proof.
  unfold loading. rewrite kink_F. unfold solidity, coef_n, kink_opts; cbn [useCd].
  rewrite sin_PI2, cos_PI2. simpl INR. field. apply PI_neq0.
Qed.

Lemma kink_refuted :
  inside 2 1 (1 / 2) kink_Rtip (PI / 2) /\
  loading kink_opts 2 1 PI (1 / 2) kink_Rtip (PI / 2) 0 (20 / 9) = 2 / 3 /\
  lossF kink_opts 2 1 (1 / 2) kink_Rtip (PI / 2) = 5 / 6 /\
  ~ ex_derive (fun cd => out_a (inductionFactors kink_opts 2 1 PI (1 / 2) kink_Rtip (PI / 2) 0 cd 1 1)) (20 / 9).
Proof.
  split; [apply kink_inside|]. split; [rewrite kink_k; field|]. split; [apply kink_F|].
  intros [d Hd].
  assert (E : forall cd, out_a (inductionFactors kink_opts 2 1 PI (1 / 2) kink_Rtip (PI / 2) 0 cd 1 1)
                         = axial_pos (3 / 10 * cd) (5 / 6)).
  { intros cd. rewrite ind_pos_a by apply kink_inside. rewrite kink_k, kink_F. reflexivity. }
  apply (is_derive_ext _ _ _ _ E) in Hd.
  (* left *)
  assert (D1 : is_derive (fun cd => 3 / 10 * cd / (1 + 3 / 10 * cd)) (20 / 9) (27 / 250)).
  { auto_derive; [lra|]. field. }
  assert (E1 : d = 27 / 250).
  { apply (side_derive _ _ (20 / 9) d (27 / 250) (- 1) ltac:(auto) Hd D1).
    exists 1. split; [lra|]. intros h Hh. apply axial_low. lra. }
  (* right *)
  assert (G : g2 (3 / 10 * (20 / 9)) (5 / 6) = (5 / 6) ^ 2) by (unfold g2; field).
  assert (D2 : is_derive (fun cd => 1 - 1 / 2 / sqrt (g2 (3 / 10 * cd) (5 / 6))) (20 / 9) (27 / 125)).
  { unfold g2 in *.
    assert (Q : sqrt (2 * (5 / 6) * (3 / 10 * (20 / 9)) - (4 / 3 - 5 / 6) * (5 / 6)) = 5 / 6)
      by (rewrite G; apply sqrt_pow2; lra).
    auto_derive.
    - change (2 * (5 / 6) * (3 / 10 * (20 / 9)) + - ((4 / 3 - 5 / 6) * (5 / 6)))
        with (2 * (5 / 6) * (3 / 10 * (20 / 9)) - (4 / 3 - 5 / 6) * (5 / 6)).
      rewrite Q. repeat split; lra.
    - change (2 * (5 / 6) * (3 / 10 * (20 / 9)) + - ((4 / 3 - 5 / 6) * (5 / 6)))
        with (2 * (5 / 6) * (3 / 10 * (20 / 9)) - (4 / 3 - 5 / 6) * (5 / 6)).
      rewrite Q. field. }
  assert (E2 : d = 27 / 125).
  { apply (side_derive _ _ (20 / 9) d (27 / 125) 1 ltac:(auto) Hd D2).
    exists (1 / 1000000). split; [lra|]. intros h Hh.
    destruct (Req_dec h 0) as [->|Hn].
    - rewrite Rmult_0_r, Rplus_0_r, G, sqrt_pow2 by lra. rewrite axial_low by lra. field.
    - apply axial_band; [lra|]. unfold band. rewrite Rabs_right; lra. }
  lra.
Qed.
