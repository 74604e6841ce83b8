(** relativewind_dv and inductionfactors_dv. *)
From Coquelicot Require Import Coquelicot.
From Coq Require Import Reals Bool Arith Lia Lra.
From Verif Require Import Prelim Num Bem IndSpec IndProofs IndSmooth Cont DeriveLib BemDiff DiffSpec.
Open Scope R_scope.

Lemma d_abs_far (f : R -> R) (t f' c : R) : is_derive f t f' -> c < Rabs (f t) -> locally t (fun s => c < Rabs (f s)).
Proof.
  intros H P. assert (C : continuous (fun s => Rabs (f s)) t).
  { apply (continuous_comp f Rabs); [apply (ex_derive_continuous f t); eexists; exact H|apply continuous_Rabs]. }
  apply (C (fun y => c < y)). exact (open_gt c _ P).
Qed.
Lemma d_abs_near (f : R -> R) (t f' c : R) : is_derive f t f' -> Rabs (f t) < c -> locally t (fun s => Rabs (f s) < c).
Proof.
  intros H P. assert (C : continuous (fun s => Rabs (f s)) t).
  { apply (continuous_comp f Rabs); [apply (ex_derive_continuous f t); eexists; exact H|apply continuous_Rabs]. }
  apply (C (fun y => y < c)). exact (open_lt c _ P).
Qed.

Lemma abs_if x : (if rleb 0 x then x else - x) = Rabs x.
Proof. rb_if; [rewrite Rabs_right; lra|rewrite Rabs_left; lra]. Qed.

Lemma relwind_W (phi a ap Vx Vy pitch chord theta rho mu : R) :
  out_W (relativeWind phi a ap Vx Vy pitch chord theta rho mu) =
  if rltb 10 (Rabs a) then Vy * (1 + ap) / cos phi
  else if rltb 10 (Rabs ap) then Vx * (1 - a) / sin phi
  else sqrt (Vx * (1 - a) * (Vx * (1 - a)) + Vy * (1 + ap) * (Vy * (1 + ap))).
Proof. reflexivity. Qed.
Lemma relwind_Re (phi a ap Vx Vy pitch chord theta rho mu : R) :
  out_Re (relativeWind phi a ap Vx Vy pitch chord theta rho mu) =
  rho * out_W (relativeWind phi a ap Vx Vy pitch chord theta rho mu) * chord / mu.
Proof. reflexivity. Qed.

Lemma relativeWind_dv_exact : forall (phi a ap Vx Vy pitch chord theta : R -> R) (rho mu t : R)
    (phid ad apd vxd vyd pitchd chordd thetad : dirs) nd,
  is_derive phi t (phid nd) -> is_derive a t (ad nd) -> is_derive ap t (apd nd) ->
  is_derive Vx t (vxd nd) -> is_derive Vy t (vyd nd) -> is_derive pitch t (pitchd nd) ->
  is_derive chord t (chordd nd) -> is_derive theta t (thetad nd) -> mu <> 0 ->
  wind_branch (phi t) (a t) (ap t) (Vx t) (Vy t) ->
  let f := fun s => relativeWind (phi s) (a s) (ap s) (Vx s) (Vy s) (pitch s) (chord s) (theta s) rho mu in
  let d := relativeWind_dv (phi t) phid (a t) ad (ap t) apd (Vx t) vxd (Vy t) vyd (pitch t) pitchd
             (chord t) chordd (theta t) thetad rho mu in
  f t = (rw_alpha d, rw_w d, rw_re d) /\
  is_derive (fun s => out_alpha (f s)) t (rw_alphad d nd) /\
  is_derive (fun s => out_W (f s)) t (rw_wd d nd) /\
  is_derive (fun s => out_Re (f s)) t (rw_red d nd).
Proof.
  intros phi a ap Vx Vy pitch chord theta rho mu t phid ad apd vxd vyd pitchd chordd thetad nd
    Hphi Ha Hap HVx HVy Hp Hc Hth Hmu Hbr f d.
  assert (HW : out_W (f t) = rw_w d /\ is_derive (fun s => out_W (f s)) t (rw_wd d nd)).
  { set (wf := fun s => if rltb 10 (Rabs (a s)) then Vy s * (1 + ap s) / cos (phi s)
      else if rltb 10 (Rabs (ap s)) then Vx s * (1 - a s) / sin (phi s)
      else sqrt (Vx s * (1 - a s) * (Vx s * (1 - a s)) + Vy s * (1 + ap s) * (Vy s * (1 + ap s)))).
    change (wf t = rw_w d /\ is_derive wf t (rw_wd d nd)).
    unfold d, relativeWind_dv. rewrite !abs_if. unfold wf.
    destruct Hbr as [(B1 & B2)|[(B1 & B2 & B3)|(B1 & B2 & B3)]].
    - replace (rltb 10 (Rabs (a t))) with true by (symmetry; apply rltb_true; lra). cbn [rw_w rw_wd].
      split; [f_equal; ring|].
      apply (is_derive_ext_loc (fun s => Vy s * (1 + ap s) / cos (phi s))).
      { generalize (d_abs_far a t _ 10 Ha B1). apply filter_imp. intros s Hs.
        replace (rltb 10 (Rabs (a s))) with true by (symmetry; apply rltb_true; lra). reflexivity. }
      der; [assumption|]. field. assumption.
    - replace (rltb 10 (Rabs (a t))) with false by (symmetry; apply rltb_false; lra).
      replace (rltb 10 (Rabs (ap t))) with true by (symmetry; apply rltb_true; lra). cbn [rw_w rw_wd].
      split; [f_equal; ring|].
      apply (is_derive_ext_loc (fun s => Vx s * (1 - a s) / sin (phi s))).
      { generalize (filter_and _ _ (d_abs_near a t _ 10 Ha B1) (d_abs_far ap t _ 10 Hap B2)).
        apply filter_imp. intros s [Hs1 Hs2].
        replace (rltb 10 (Rabs (a s))) with false by (symmetry; apply rltb_false; lra).
        replace (rltb 10 (Rabs (ap s))) with true by (symmetry; apply rltb_true; lra). reflexivity. }
      der; [assumption|]. field. assumption.
    - replace (rltb 10 (Rabs (a t))) with false by (symmetry; apply rltb_false; lra).
      replace (rltb 10 (Rabs (ap t))) with false by (symmetry; apply rltb_false; lra). cbn [rw_w rw_wd].
      set (u := Vx t * (1 - a t)) in *. set (v := Vy t * (1 + ap t)) in *.
      replace (u ^ 2 + v ^ 2) with (u * u + v * v) by ring.
      assert (Hpos : 0 < u * u + v * v).
      { destruct B3 as [B3|B3]; pose proof (Rsqr_pos_lt _ B3) as P; unfold Rsqr in P;
          [pose proof (Rle_0_sqr v) as Q|pose proof (Rle_0_sqr u) as Q]; unfold Rsqr in Q; lra. }
      split; [reflexivity|].
      replace (reqb (u * u + v * v) 0) with false by (symmetry; apply reqb_false; lra).
      apply (is_derive_ext_loc (fun s => sqrt (Vx s * (1 - a s) * (Vx s * (1 - a s)) + Vy s * (1 + ap s) * (Vy s * (1 + ap s))))).
      { generalize (filter_and _ _ (d_abs_near a t _ 10 Ha B1) (d_abs_near ap t _ 10 Hap B2)).
        apply filter_imp. intros s [Hs1 Hs2].
        replace (rltb 10 (Rabs (a s))) with false by (symmetry; apply rltb_false; lra).
        replace (rltb 10 (Rabs (ap s))) with false by (symmetry; apply rltb_false; lra). reflexivity. }
      der; [exact Hpos|]. fold u v. f_equal. unfold u, v. ring. }
  destruct HW as [EW DW].
  assert (ER : rw_re d = rho * rw_w d * chord t / mu /\
               rw_red d nd = rho * (chord t * rw_wd d nd + rw_w d * chordd nd) / mu /\
               rw_alpha d = phi t - (theta t + pitch t) /\ rw_alphad d nd = phid nd - thetad nd - pitchd nd).
  { unfold d, relativeWind_dv. rewrite !abs_if.
    destruct (rltb 10 (Rabs (a t))); [|destruct (rltb 10 (Rabs (ap t)))]; repeat split; reflexivity. }
  destruct ER as (E1 & E2 & E3 & E4).
  split; [|split; [|split]].
  - rewrite E1, E3, <- EW. reflexivity.
  - rewrite E4. change (is_derive (fun s => phi s - (theta s + pitch s)) t (phid nd - thetad nd - pitchd nd)).
    der. ring.
  - exact DW.
  - rewrite E2.
    apply (is_derive_ext (fun s => rho * out_W (f s) * chord s / mu)); [intros s; symmetry; apply relwind_Re|].
    der; [assumption|]. rewrite EW. field. assumption.
Qed.

(** ** Loss factors *)
Lemma acos_dv_in x x' : 0 < x < 1 -> acos_dv x x' = - (x' / sqrt (1 - x ^ 2)).
Proof.
  intros H. unfold acos_dv.
  replace (reqb x 1) with false by (symmetry; apply reqb_false; lra).
  replace (reqb x (-1)) with false by (symmetry; apply reqb_false; lra). reflexivity.
Qed.

(** One loss factor: [num] is the distance to the edge, [l] the reference radius. *)
Lemma loss_dv (b : R) (num l sphi : R -> R) (t num' l' s' : R) :
  is_derive num t num' -> is_derive l t l' -> is_derive sphi t s' -> l t <> 0 -> sphi t <> 0 ->
  0 < b * num t / (2 * l t * sphi t) ->
  let temp := 2 * l t * sphi t in
  let temp0 := num t / temp in
  let arg1 := exp (- (b * temp0)) in
  let f := fun s => 2 / PI * acos (exp (- (b / 2 * num s / (l s * sphi s)))) in
  f t = 2 / PI * acos arg1 /\ 0 < f t /\
  is_derive f t (2 * acos_dv arg1 (- (arg1 * (b * (num' - temp0 * (sphi t * 2 * l' + 2 * l t * s')) / temp))) / PI).
Proof.
  intros Hn Hl Hs L0 S0 Hpos temp temp0 arg1 f.
  pose proof PI_RGT_0 as HP.
  assert (Ef : b / 2 * num t / (l t * sphi t) = b * temp0) by (unfold temp0, temp; field; auto).
  assert (Hp : 0 < b * temp0).
  { replace (b * temp0) with (b * num t / (2 * l t * sphi t)) by (unfold temp0, temp; field; auto). exact Hpos. }
  assert (Hu : 0 < arg1 < 1) by (apply exp_neg_unit; exact Hp).
  assert (Hv : f t = 2 / PI * acos arg1) by (unfold f; rewrite Ef; reflexivity).
  split; [exact Hv|split].
  - rewrite Hv. pose proof (acos_unit arg1 Hu). apply Rmult_lt_0_compat; [apply Rdiv_lt_0_compat; lra|lra].
  - rewrite acos_dv_in by exact Hu. unfold f. der.
    + apply Rmult_integral_contrapositive_currified; assumption.
    + rewrite Ef. fold arg1. lra.
    + rewrite Ef. fold arg1. unfold temp0, temp.
      assert (Hq : sqrt (1 - arg1 ^ 2) <> 0) by (apply Rgt_not_eq, sqrt_lt_R0; nra).
      set (q := sqrt (1 - arg1 ^ 2)) in *. field. repeat split; auto; lra.
Qed.

(** ** Locals of inductionFactors along a curve *)
Section Locals.
Variables (o : bemopts) (B : nat) (r chord Rhub Rtip phi cl cd : R -> R) (t : R).
Variables (rd chordd rhubd rtipd phid cld cdd : dirs) (nd : nat).
Hypothesis Hr : is_derive r t (rd nd).
Hypothesis Hc : is_derive chord t (chordd nd).
Hypothesis Hh : is_derive Rhub t (rhubd nd).
Hypothesis Ht : is_derive Rtip t (rtipd nd).
Hypothesis Hphi : is_derive phi t (phid nd).
Hypothesis Hcl : is_derive cl t (cld nd).
Hypothesis Hcd : is_derive cd t (cdd nd).
Hypothesis r0 : r t <> 0.
Hypothesis s0 : sin (phi t) <> 0.
Hypothesis Hloss : losses_apply o B (r t) (Rhub t) (Rtip t) (phi t).

Let L := fun s => bem_locals o B (r s) (chord s) (Rhub s) (Rtip s) (phi s) (cl s) (cd s).
Let D := bem_locals_dv o B (r t) rd (chord t) chordd (Rhub t) rhubd (Rtip t) rtipd (phi t) phid (cl t) cld (cd t) cdd.

Definition the_ftip : R * dirs :=
  if tipLoss o then
    let temp := 2 * r t * sin (phi t) in
    let temp0 := (Rtip t - r t) / temp in
    let arg1 := exp (- (INR B * temp0)) in
    (2 / PI * acos arg1,
     fun nd => 2 * acos_dv arg1 (- (arg1 * (INR B * (rtipd nd - rd nd
        - temp0 * (sin (phi t) * 2 * rd nd + 2 * r t * (cos (phi t) * phid nd))) / temp))) / PI)
  else (1, fun _ : nat => 0).
Definition the_fhub : R * dirs :=
  if hubLoss o then
    let temp := 2 * Rhub t * sin (phi t) in
    let temp0 := (r t - Rhub t) / temp in
    let arg1 := exp (- (INR B * temp0)) in
    (2 / PI * acos arg1,
     fun nd => 2 * acos_dv arg1 (- (arg1 * (INR B * (rd nd - rhubd nd
        - temp0 * (sin (phi t) * 2 * rhubd nd + 2 * Rhub t * (cos (phi t) * phid nd))) / temp))) / PI)
  else (1, fun _ : nat => 0).

Lemma ftip_dv : l_Ftip (L t) = fst the_ftip /\ 0 < fst the_ftip /\
  is_derive (fun s => l_Ftip (L s)) t (snd the_ftip nd).
Proof.
  unfold the_ftip. destruct Hloss as [HT _].
  destruct (tipLoss o) eqn:E.
  - specialize (HT eq_refl). cbn [fst snd].
    destruct (loss_dv (INR B) (fun s => Rtip s - r s) r (fun s => sin (phi s)) t (rtipd nd - rd nd) (rd nd)
                (cos (phi t) * phid nd)) as (E1 & E2 & E3); try assumption.
    + apply d_minus; assumption.
    + apply d_sin. assumption.
    + assert (EQ : forall s, l_Ftip (L s) = 2 / PI * acos (exp (- (INR B / 2 * (Rtip s - r s) / (r s * sin (phi s)))))).
      { intros s. unfold L, bem_locals. cbn [l_Ftip]. rewrite E. reflexivity. }
      split; [rewrite EQ; exact E1|split].
      * rewrite <- E1. exact E2.
      * apply (is_derive_ext _ _ _ _ (fun s => eq_sym (EQ s))). exact E3.
  - cbn [fst snd].
    assert (EQ : forall s, l_Ftip (L s) = 1) by (intros s; unfold L, bem_locals; cbn [l_Ftip]; rewrite E; reflexivity).
    split; [apply EQ|split; [lra|]].
    apply (is_derive_ext _ _ _ _ (fun s => eq_sym (EQ s))). apply d_const.
Qed.

Lemma fhub_dv : l_Fhub (L t) = fst the_fhub /\ 0 < fst the_fhub /\
  is_derive (fun s => l_Fhub (L s)) t (snd the_fhub nd).
Proof.
  unfold the_fhub. destruct Hloss as [_ HT].
  destruct (hubLoss o) eqn:E.
  - specialize (HT eq_refl). destruct HT as [h0 HT]. cbn [fst snd].
    destruct (loss_dv (INR B) (fun s => r s - Rhub s) Rhub (fun s => sin (phi s)) t (rd nd - rhubd nd) (rhubd nd)
                (cos (phi t) * phid nd)) as (E1 & E2 & E3); try assumption.
    + apply d_minus; assumption.
    + apply d_sin. assumption.
    + assert (EQ : forall s, l_Fhub (L s) = 2 / PI * acos (exp (- (INR B / 2 * (r s - Rhub s) / (Rhub s * sin (phi s)))))).
      { intros s. unfold L, bem_locals. cbn [l_Fhub]. rewrite E. reflexivity. }
      split; [rewrite EQ; exact E1|split].
      * rewrite <- E1. exact E2.
      * apply (is_derive_ext _ _ _ _ (fun s => eq_sym (EQ s))). exact E3.
  - cbn [fst snd].
    assert (EQ : forall s, l_Fhub (L s) = 1) by (intros s; unfold L, bem_locals; cbn [l_Fhub]; rewrite E; reflexivity).
    split; [apply EQ|split; [lra|]].
    apply (is_derive_ext _ _ _ _ (fun s => eq_sym (EQ s))). apply d_const.
Qed.

Lemma D_f : v_f D = fst the_ftip * fst the_fhub /\
  v_fd D nd = fst the_fhub * snd the_ftip nd + fst the_ftip * snd the_fhub nd.
Proof. unfold D, bem_locals_dv, the_ftip, the_fhub. destruct (tipLoss o), (hubLoss o); split; reflexivity. Qed.

Lemma F_dv : l_F (L t) = v_f D /\ 0 < v_f D /\ is_derive (fun s => l_F (L s)) t (v_fd D nd).
Proof.
  destruct ftip_dv as (A1 & A2 & A3). destruct fhub_dv as (B1 & B2 & B3). destruct D_f as [-> ->].
  split; [|split].
  - change (l_Ftip (L t) * l_Fhub (L t) = fst the_ftip * fst the_fhub). rewrite A1, B1. reflexivity.
  - apply Rmult_lt_0_compat; assumption.
  - change (is_derive (fun s => l_Ftip (L s) * l_Fhub (L s)) t (fst the_fhub * snd the_ftip nd + fst the_ftip * snd the_fhub nd)).
    der. rewrite A1, B1. ring.
Qed.

Definition the_cnd : R :=
  if negb (useCd o) then cos (phi t) * cld nd + cl t * (- (sin (phi t) * phid nd))
  else cos (phi t) * cld nd + cl t * (- (sin (phi t) * phid nd)) + sin (phi t) * cdd nd + cd t * (cos (phi t) * phid nd).
Definition the_ctd : R :=
  if negb (useCd o) then sin (phi t) * cld nd + cl t * (cos (phi t) * phid nd)
  else sin (phi t) * cld nd + cl t * (cos (phi t) * phid nd) - cos (phi t) * cdd nd - cd t * (- (sin (phi t) * phid nd)).

Lemma cn_dv : is_derive (fun s => l_cn (L s)) t the_cnd /\ is_derive (fun s => l_ct (L s)) t the_ctd.
Proof.
  unfold the_cnd, the_ctd. destruct (useCd o) eqn:E; cbn [negb].
  - assert (EQ : (forall s, l_cn (L s) = cl s * cos (phi s) + cd s * sin (phi s)) /\
                 (forall s, l_ct (L s) = cl s * sin (phi s) - cd s * cos (phi s)))
      by (split; intros s; unfold L, bem_locals; cbn [l_cn l_ct]; rewrite E; reflexivity).
    destruct EQ as [Q1 Q2]. split.
    + apply (is_derive_ext _ _ _ _ (fun s => eq_sym (Q1 s))). der. ring.
    + apply (is_derive_ext _ _ _ _ (fun s => eq_sym (Q2 s))). der. ring.
  - assert (EQ : (forall s, l_cn (L s) = cl s * cos (phi s)) /\ (forall s, l_ct (L s) = cl s * sin (phi s)))
      by (split; intros s; unfold L, bem_locals; cbn [l_cn l_ct]; rewrite E; reflexivity).
    destruct EQ as [Q1 Q2]. split.
    + apply (is_derive_ext _ _ _ _ (fun s => eq_sym (Q1 s))). der. ring.
    + apply (is_derive_ext _ _ _ _ (fun s => eq_sym (Q2 s))). der. ring.
Qed.

Lemma D_k :
  let sp := INR B * (chord t / (2 * PI * r t)) in
  let spd := INR B * (chordd nd - chord t * 2 * PI * rd nd / (2 * PI * r t)) / (2 * PI * r t) in
  let sphi := sin (phi t) in let cphi := cos (phi t) in
  let sphid := cos (phi t) * phid nd in let cphid := - (sin (phi t) * phid nd) in
  v_k D = sp * l_cn (L t) / (4 * v_f D * (sphi * sphi)) /\
  v_kp D = sp * l_ct (L t) / (4 * v_f D * sphi * cphi) /\
  v_kd D nd = (l_cn (L t) * spd + sp * the_cnd
     - sp * l_cn (L t) / (4 * v_f D * (sphi * sphi)) * (sphi ^ 2 * 4 * v_fd D nd + 4 * v_f D * 2 * sphi * sphid))
     / (4 * v_f D * (sphi * sphi)) /\
  v_kpd D nd = (l_ct (L t) * spd + sp * the_ctd
     - sp * l_ct (L t) / (4 * v_f D * sphi * cphi) * (sphi * cphi * 4 * v_fd D nd + 4 * v_f D * (cphi * sphid + sphi * cphid)))
     / (4 * v_f D * sphi * cphi) /\
  v_sphi D = sphi /\ v_cphi D = cphi /\ v_sphid D nd = sphid /\ v_cphid D nd = cphid.
Proof.
  unfold D, L, bem_locals_dv, bem_locals, the_cnd, the_ctd.
  destruct (tipLoss o), (hubLoss o), (useCd o); repeat split; reflexivity.
Qed.

Lemma k_dv : l_k (L t) = v_k D /\ is_derive (fun s => l_k (L s)) t (v_kd D nd).
Proof.
  destruct F_dv as (A1 & A2 & A3). destruct cn_dv as [C1 _].
  destruct D_k as (-> & _ & -> & _). pose proof PI_RGT_0 as HP.
  change (l_k (L t)) with (INR B / 2 / PI * chord t / r t * l_cn (L t) / 4 / l_F (L t) / sin (phi t) / sin (phi t)).
  split.
  - rewrite A1. field. repeat split; auto; lra.
  - change (is_derive (fun s => INR B / 2 / PI * chord s / r s * l_cn (L s) / 4 / l_F (L s) / sin (phi s) / sin (phi s)) t
      ((l_cn (L t) * (INR B * (chordd nd - chord t * 2 * PI * rd nd / (2 * PI * r t)) / (2 * PI * r t))
        + INR B * (chord t / (2 * PI * r t)) * the_cnd
     - INR B * (chord t / (2 * PI * r t)) * l_cn (L t) / (4 * v_f D * (sin (phi t) * sin (phi t)))
       * (sin (phi t) ^ 2 * 4 * v_fd D nd + 4 * v_f D * 2 * sin (phi t) * (cos (phi t) * phid nd)))
     / (4 * v_f D * (sin (phi t) * sin (phi t))))).
    rewrite <- A1 in *. der; try assumption; try lra.
    field. repeat split; auto; lra.
Qed.

Lemma kp_dv : cos (phi t) <> 0 -> l_kp (L t) = v_kp D /\ is_derive (fun s => l_kp (L s)) t (v_kpd D nd).
Proof.
  intros c0. destruct F_dv as (A1 & A2 & A3). destruct cn_dv as [_ C1].
  destruct D_k as (_ & -> & _ & -> & _). pose proof PI_RGT_0 as HP.
  change (l_kp (L t)) with (INR B / 2 / PI * chord t / r t * l_ct (L t) / 4 / l_F (L t) / sin (phi t) / cos (phi t)).
  split.
  - rewrite A1. field. repeat split; auto; lra.
  - change (is_derive (fun s => INR B / 2 / PI * chord s / r s * l_ct (L s) / 4 / l_F (L s) / sin (phi s) / cos (phi s)) t
      ((l_ct (L t) * (INR B * (chordd nd - chord t * 2 * PI * rd nd / (2 * PI * r t)) / (2 * PI * r t))
        + INR B * (chord t / (2 * PI * r t)) * the_ctd
     - INR B * (chord t / (2 * PI * r t)) * l_ct (L t) / (4 * v_f D * sin (phi t) * cos (phi t))
       * (sin (phi t) * cos (phi t) * 4 * v_fd D nd
          + 4 * v_f D * (cos (phi t) * (cos (phi t) * phid nd) + sin (phi t) * - (sin (phi t) * phid nd))))
     / (4 * v_f D * sin (phi t) * cos (phi t)))).
    rewrite <- A1 in *. der; try assumption; try lra.
    field. repeat split; auto; lra.
Qed.
End Locals.

(** ** Axial induction *)
Lemma axial_pos_dv_exact (k F : R -> R) (t : R) (kd fd : dirs) nd :
  is_derive k t (kd nd) -> is_derive F t (fd nd) -> 0 < F t ->
  (k t < 2 / 3 /\ k t <> -1 \/ (k t = 2 / 3 /\ 1 / 1000000 < Rabs (band (F t) (k t)))
   \/ (2 / 3 < k t /\ Rabs (band (F t) (k t)) <> 1 / 1000000)) ->
  fst (axial_pos_dv (k t) kd (F t) fd) = axial_pos (k t) (F t) /\
  1 - axial_pos (k t) (F t) <> 0 /\
  is_derive (fun s => axial_pos (k s) (F s)) t (snd (axial_pos_dv (k t) kd (F t) fd) nd).
Proof.
  intros Hk HF F0 Hbr.
  assert (Low : k t <= 2 / 3 -> k t <> -1 ->
    fst (axial_pos_dv (k t) kd (F t) fd) = axial_pos (k t) (F t) /\ 1 - axial_pos (k t) (F t) <> 0 /\
    snd (axial_pos_dv (k t) kd (F t) fd) nd = Dk_lo (k t) * kd nd).
  { intros Hle Hne. rewrite axial_low by exact Hle. unfold axial_pos_dv.
    replace (rleb (k t) (2 / 3)) with true by (symmetry; apply rleb_true; exact Hle). cbn [fst snd].
    assert (N : 1 + k t <> 0) by (intros E; apply Hne; lra).
    assert (N' : k t + 1 <> 0) by (intros E; apply Hne; lra).
    split; [field; auto|split].
    - replace (1 - k t / (1 + k t)) with (/ (1 + k t)) by (field; exact N). apply Rinv_neq_0_compat; exact N.
    - unfold Dk_lo. field. auto. }
  destruct Hbr as [[Hlt Hne]|[[Heq Hb]|[Hgt Hb]]].
  - destruct (Low ltac:(lra) Hne) as (L1 & L2 & L3). split; [exact L1|split; [exact L2|]]. rewrite L3.
    apply (is_derive_ext_loc (fun s => k s / (1 + k s))).
    + generalize (near_lt k (fun _ => 2 / 3) t _ _ Hk (d_const _ _) Hlt). apply filter_imp.
      intros s Hs. symmetry. apply axial_low. lra.
    + apply lo_derive; [exact Hk|]. intros E. apply Hne. lra.
  - destruct (Low ltac:(lra) ltac:(lra)) as (L1 & L2 & L3). split; [exact L1|split; [exact L2|]]. rewrite L3.
    assert (G : good (k t) (F t)).
    { unfold good. rewrite Heq in *. rewrite g2_switch, sqrt_pow2 by lra.
      repeat split; try lra. apply pow_lt; lra. }
    eapply d_ext; [apply (axial_curve k F t (kd nd) (fd nd) Hk HF G (fun _ => F0))|].
    unfold Dk, DF. replace (rleb (k t) (2 / 3)) with true by (symmetry; apply rleb_true; lra). ring.
  - pose proof (g2_gt (k t) (F t) Hgt F0) as Hg2. assert (Hg : 0 < g2 (k t) (F t)) by nra.
    assert (Hq : 0 < sqrt (g2 (k t) (F t))) by (apply sqrt_lt_R0; exact Hg).
    unfold axial_pos_dv. rewrite abs_if.
    replace (rleb (k t) (2 / 3)) with false by (symmetry; apply rleb_false; exact Hgt).
    fold (band (F t) (k t)). fold (g2 (k t) (F t)).
    replace (reqb (g2 (k t) (F t)) 0) with false by (symmetry; apply reqb_false; lra).
    assert (Dg : is_derive (fun s => g2 (k s) (F s)) t
        (2 * (k t * fd nd + F t * kd nd) - (4 / 3 - 2 * F t) * fd nd)).
    { unfold g2. der. ring. }
    assert (Db : is_derive (fun s => band (F s) (k s)) t (2 * (k t * fd nd + F t * kd nd) + 2 * fd nd)).
    { unfold band. der. ring. }
    pose proof (near_lt (fun _ => 2 / 3) k t _ _ (d_const _ _) Hk Hgt) as Nk.
    destruct (Rlt_le_dec (Rabs (band (F t) (k t))) (1 / 1000000)) as [Hin|Hout].
    + replace (rltb (Rabs (band (F t) (k t))) (1 / 1000000)) with true by (symmetry; apply rltb_true; exact Hin).
      cbn [fst snd]. rewrite axial_band by assumption. set (q := sqrt (g2 (k t) (F t))) in *.
      split; [field; lra|split].
      * replace (1 - (1 - 1 / 2 / q)) with (/ (2 * q)) by (field; lra). apply Rinv_neq_0_compat. lra.
      * apply (is_derive_ext_loc (fun s => 1 - 1 / 2 / sqrt (g2 (k s) (F s)))).
        { generalize (filter_and _ _ Nk (d_abs_near _ t _ _ Db Hin)). apply filter_imp.
          intros s [Hs1 Hs2]. symmetry. apply axial_band; assumption. }
        der; [exact Hg|fold q; lra|]. fold q. field. lra.
    + replace (rltb (Rabs (band (F t) (k t))) (1 / 1000000)) with false by (symmetry; apply rltb_false; lra).
      cbn [fst snd].
      assert (Hb' : 1 / 1000000 < Rabs (band (F t) (k t))) by (destruct Hout; [assumption|exfalso; apply Hb; lra]).
      assert (Hb0 : band (F t) (k t) <> 0) by (intros E; rewrite E, Rabs_R0 in Hb'; lra).
      assert (Ev : axial_pos (k t) (F t) = (2 * F t * k t - (10 / 9 - F t) - sqrt (g2 (k t) (F t))) / band (F t) (k t)).
      { rewrite axial_pos_R. rb_if; [lra|]. rb_if; [lra|reflexivity]. }
      rewrite Ev. split; [reflexivity|split].
      * rewrite <- Ev. pose proof (band_factor (k t) (F t) ltac:(lra)) as BF. rewrite Ev.
        set (q := sqrt (g2 (k t) (F t))) in *. intros E. apply Hb0.
        assert (E' : band (F t) (k t) - (2 * F t * k t - (10 / 9 - F t) - q) = 0).
        { replace (band (F t) (k t) - (2 * F t * k t - (10 / 9 - F t) - q))
            with ((1 - (2 * F t * k t - (10 / 9 - F t) - q) / band (F t) (k t)) * band (F t) (k t)) by (field; exact Hb0).
          rewrite E. ring. }
        assert (E2 : q - (5 / 3 - F t) = 0) by (unfold band in E'; lra).
        rewrite BF, E2. ring.
      * apply (is_derive_ext_loc (fun s => (2 * F s * k s - (10 / 9 - F s) - sqrt (g2 (k s) (F s))) / band (F s) (k s))).
        { generalize (filter_and _ _ Nk (d_abs_far _ t _ _ Db Hb')). apply filter_imp.
          intros s [Hs1 Hs2]. rewrite axial_pos_R. rb_if; [lra|]. rb_if; [lra|reflexivity]. }
        der; [exact Hg|exact Hb0|]. set (q := sqrt (g2 (k t) (F t))) in *. field. split; lra.
Qed.

Lemma axial_neg_dv_exact (k : R -> R) (t : R) (kd : dirs) nd : is_derive k t (kd nd) -> k t <> 1 ->
  fst (axial_neg_dv (k t) kd) = axial_neg (k t) /\
  is_derive (fun s => axial_neg (k s)) t (snd (axial_neg_dv (k t) kd) nd).
Proof.
  intros Hk Hne.
  assert (EQ : forall x : R, axial_neg x = if rltb 1 x then x / (x - 1) else 0) by reflexivity.
  destruct (Rtotal_order (k t) 1) as [L|[E|G]]; [|contradiction|].
  - unfold axial_neg_dv. rewrite EQ. replace (rltb 1 (k t)) with false by (symmetry; apply rltb_false; lra).
    split; [reflexivity|]. cbn [snd].
    apply (is_derive_ext_loc (fun _ => 0)); [|apply d_const].
    generalize (near_lt k (fun _ => 1) t _ _ Hk (d_const _ _) L). apply filter_imp. intros s Hs.
    rewrite EQ. rb_if; [lra|reflexivity].
  - unfold axial_neg_dv. rewrite EQ. replace (rltb 1 (k t)) with true by (symmetry; apply rltb_true; lra).
    split; [reflexivity|]. cbn [snd].
    apply (is_derive_ext_loc (fun s => k s / (k s - 1))).
    + generalize (near_lt (fun _ => 1) k t _ _ (d_const _ _) Hk G). apply filter_imp. intros s Hs.
      rewrite EQ. rb_if; [reflexivity|lra].
    + der; [lra|]. field. lra.
Qed.

(** ** Values of the locals in the textbook form *)
Lemma l_F_value o B (r chord Rhub Rtip phi cl cd : R) : r <> 0 -> sin phi <> 0 ->
  losses_apply o B r Rhub Rtip phi ->
  l_F (bem_locals o B r chord Rhub Rtip phi cl cd) = lossF o B r Rhub Rtip phi.
Proof.
  intros Hr Hs [_ HH].
  unfold bem_locals, lossF, prandtl, l_F, ofR, nmul, nadd, nsub, ndiv, nopp, nsin, ncos, nacos, nexp, R_arith.
  replace (INR B / 2 * (Rtip - r) / (r * sin phi)) with (INR B * (Rtip - r) / (2 * r * sin phi)) by (field; auto).
  destruct (hubLoss o); [|reflexivity]. destruct (HH eq_refl) as [h0 _].
  replace (INR B / 2 * (r - Rhub) / (Rhub * sin phi)) with (INR B * (r - Rhub) / (2 * Rhub * sin phi)) by (field; auto).
  reflexivity.
Qed.

Lemma lossF_pos o B (r Rhub Rtip phi : R) : losses_apply o B r Rhub Rtip phi -> 0 < lossF o B r Rhub Rtip phi.
Proof.
  intros [HT HH]. unfold lossF, prandtl. pose proof PI_RGT_0 as HP.
  assert (Q : forall x, 0 < x -> 0 < 2 / PI * acos (exp (- x))).
  { intros x Hx. pose proof (acos_unit _ (exp_neg_unit x Hx)).
    apply Rmult_lt_0_compat; [apply Rdiv_lt_0_compat; lra|lra]. }
  apply Rmult_lt_0_compat.
  - destruct (tipLoss o); [apply Q, HT; reflexivity|lra].
  - destruct (hubLoss o); [apply Q, HH; reflexivity|lra].
Qed.

Lemma l_k_value o B (r chord Rhub Rtip phi cl cd : R) : r <> 0 -> sin phi <> 0 ->
  losses_apply o B r Rhub Rtip phi ->
  l_k (bem_locals o B r chord Rhub Rtip phi cl cd) = loading o B r chord Rhub Rtip phi cl cd /\
  (cos phi <> 0 -> l_kp (bem_locals o B r chord Rhub Rtip phi cl cd) = loading_t o B r chord Rhub Rtip phi cl cd).
Proof.
  intros Hr Hs HL. pose proof (lossF_pos o B r Rhub Rtip phi HL) as HF. pose proof PI_RGT_0.
  destruct (l_k_eq o B r chord Rhub Rtip phi cl cd) as [-> ->].
  destruct (cn_spec o B r chord Rhub Rtip phi cl cd) as [-> ->]. rewrite l_F_value by assumption.
  unfold loading, loading_t, solidity. split; [|intros c0]; field; repeat split; auto; lra.
Qed.

(** ** The routine *)
Lemma inductionFactors_dv_exact : forall (o : bemopts) (B : nat)
    (r chord Rhub Rtip phi cl cd Vx Vy : R -> R) (t : R)
    (rd chordd rhubd rtipd phid cld cdd vxd vyd : dirs) nd,
  is_derive r t (rd nd) -> is_derive chord t (chordd nd) -> is_derive Rhub t (rhubd nd) ->
  is_derive Rtip t (rtipd nd) -> is_derive phi t (phid nd) -> is_derive cl t (cld nd) ->
  is_derive cd t (cdd nd) -> is_derive Vx t (vxd nd) -> is_derive Vy t (vyd nd) ->
  r t <> 0 -> sin (phi t) <> 0 -> Vx t <> 0 -> Vy t <> 0 ->
  losses_apply o B (r t) (Rhub t) (Rtip t) (phi t) ->
  axial_branch (phi t) (loading o B (r t) (chord t) (Rhub t) (Rtip t) (phi t) (cl t) (cd t))
    (lossF o B (r t) (Rhub t) (Rtip t) (phi t)) ->
  (wakerotation o = true -> cos (phi t) <> 0 /\
     loading_t o B (r t) (chord t) (Rhub t) (Rtip t) (phi t) (cl t) (cd t) <> 1) ->
  let f := fun s => inductionFactors o B (r s) (chord s) (Rhub s) (Rtip s) (phi s) (cl s) (cd s) (Vx s) (Vy s) in
  let d := inductionFactors_dv o B (r t) rd (chord t) chordd (Rhub t) rhubd (Rtip t) rtipd (phi t) phid
             (cl t) cld (cd t) cdd (Vx t) vxd (Vy t) vyd in
  f t = (iv_fzero d, iv_a d, iv_ap d) /\
  is_derive (fun s => out_fzero (f s)) t (iv_fzerod d nd) /\
  is_derive (fun s => out_a (f s)) t (iv_ad d nd) /\
  is_derive (fun s => out_ap (f s)) t (iv_apd d nd).
Proof.
  intros o B r chord Rhub Rtip phi cl cd Vx Vy t rd chordd rhubd rtipd phid cld cdd vxd vyd nd
    Hr Hc Hh Ht Hphi Hcl Hcd HVx HVy r0 s0 x0 y0 Hloss Hax Hwake f d.
  destruct (l_k_value o B (r t) (chord t) (Rhub t) (Rtip t) (phi t) (cl t) (cd t) r0 s0 Hloss) as [Vk Vkp].
  rewrite <- Vk in Hax. rewrite <- (l_F_value o B (r t) (chord t) (Rhub t) (Rtip t) (phi t) (cl t) (cd t) r0 s0 Hloss) in Hax.
  pose proof (F_dv o B r chord Rhub Rtip phi cl cd t rd chordd rhubd rtipd phid cld cdd nd Hr Hh Ht Hphi r0 s0 Hloss) as DF.
  pose proof (k_dv o B r chord Rhub Rtip phi cl cd t rd chordd rhubd rtipd phid cld cdd nd Hr Hc Hh Ht Hphi Hcl Hcd r0 s0 Hloss) as DK.
  pose proof (fun c0 => kp_dv o B r chord Rhub Rtip phi cl cd t rd chordd rhubd rtipd phid cld cdd nd Hr Hc Hh Ht Hphi Hcl Hcd r0 s0 Hloss c0) as DKP.
  pose proof (D_k o B r chord Rhub Rtip phi cl cd t rd chordd rhubd rtipd phid cld cdd nd) as DD. cbv zeta in DD.
  set (L := fun s => bem_locals o B (r s) (chord s) (Rhub s) (Rtip s) (phi s) (cl s) (cd s)) in *.
  set (D := bem_locals_dv o B (r t) rd (chord t) chordd (Rhub t) rhubd (Rtip t) rtipd (phi t) phid (cl t) cld (cd t) cdd) in *.
  change (bem_locals o B (r t) (chord t) (Rhub t) (Rtip t) (phi t) (cl t) (cd t)) with (L t) in *.
  destruct DD as (_ & _ & _ & _ & Es & Ec & Esd & Ecd).
  destruct DF as (EF & PF & DF). destruct DK as [EK DK].
  set (A := fun s => if rltb 0 (phi s) then axial_pos (l_k (L s)) (l_F (L s)) else axial_neg (l_k (L s))).
  set (AD := if rltb 0 (phi t) then axial_pos_dv (v_k D) (v_kd D) (v_f D) (v_fd D) else axial_neg_dv (v_k D) (v_kd D)).
  assert (HA : fst AD = A t /\ (0 < phi t -> 1 - A t <> 0) /\ is_derive A t (snd AD nd)).
  { assert (Pos : 0 < phi t -> (l_k (L t) < 2 / 3 /\ l_k (L t) <> -1 \/ (l_k (L t) = 2 / 3 /\ 1 / 1000000 < Rabs (band (l_F (L t)) (l_k (L t))))
        \/ (2 / 3 < l_k (L t) /\ Rabs (band (l_F (L t)) (l_k (L t))) <> 1 / 1000000)) -> fst AD = A t /\ (0 < phi t -> 1 - A t <> 0) /\ is_derive A t (snd AD nd)).
    { intros P0 P1. unfold A, AD. rewrite <- EK, <- EF.
      replace (rltb 0 (phi t)) with true by (symmetry; apply rltb_true; exact P0).
      destruct (axial_pos_dv_exact (fun s => l_k (L s)) (fun s => l_F (L s)) t (v_kd D) (v_fd D) nd DK DF
                  ltac:(lra) P1) as (Q1 & Q2 & Q3).
      split; [exact Q1|split; [intros _; exact Q2|]].
      apply (is_derive_ext_loc (fun s => axial_pos (l_k (L s)) (l_F (L s)))); [|exact Q3].
      generalize (near_pos phi t _ Hphi P0). apply filter_imp. intros s Hs.
      replace (rltb 0 (phi s)) with true by (symmetry; apply rltb_true; exact Hs). reflexivity. }
    destruct Hax as [(P0 & P1 & P2)|[(P0 & P1 & P2)|[(P0 & P1 & P2)|(P0 & P1)]]];
      [apply Pos; tauto|apply Pos; tauto|apply Pos; tauto|].
    unfold A, AD. rewrite <- EK. replace (rltb 0 (phi t)) with false by (symmetry; apply rltb_false; lra).
    destruct (axial_neg_dv_exact (fun s => l_k (L s)) t (v_kd D) nd DK P1) as (Q1 & Q3).
    split; [exact Q1|split; [intros; lra|]].
    apply (is_derive_ext_loc (fun s => axial_neg (l_k (L s)))); [|exact Q3].
    generalize (near_neg phi t _ Hphi P0). apply filter_imp. intros s Hs.
    replace (rltb 0 (phi s)) with false by (symmetry; apply rltb_false; lra). reflexivity. }
  destruct HA as (EA & NA & DA).
  set (KP := fun s => if negb (wakerotation o) then 0 else l_kp (L s)).
  set (KPV := if negb (wakerotation o) then 0 else v_kp D).
  set (KPD := if negb (wakerotation o) then 0 else v_kpd D nd).
  set (AP := fun s => if negb (wakerotation o) then 0 else l_kp (L s) / (1 - l_kp (L s))).
  set (APV := if negb (wakerotation o) then 0 else v_kp D / (- v_kp D + 1)).
  set (APD := if negb (wakerotation o) then 0 else (v_kp D / (- v_kp D + 1) + 1) * v_kpd D nd / (1 - v_kp D)).
  assert (HP : KPV = KP t /\ is_derive KP t KPD /\ APV = AP t /\ is_derive AP t APD).
  { unfold KPV, KP, KPD, AP, APV, APD. destruct (wakerotation o) eqn:W; cbn [negb].
    - destruct (Hwake eq_refl) as [c0 N1]. destruct (DKP c0) as [E1 E2].
      rewrite <- (Vkp c0) in N1. rewrite <- E1.
      assert (M1 : 1 - l_kp (L t) <> 0) by (intros E; apply N1; lra).
      assert (M2 : - l_kp (L t) + 1 <> 0) by (intros E; apply N1; lra).
      split; [reflexivity|split; [exact E2|split]].
      + field. auto.
      + der; [exact M1|]. field. auto.
    - split; [reflexivity|split; [apply d_const|split; [reflexivity|apply d_const]]]. }
  destruct HP as (EKP & DP & EAP & DAP).
  set (FZ := fun s => if rltb 0 (phi s) then sin (phi s) / (1 - A s) - cos (phi s) / (Vy s / Vx s) * (1 - KP s)
                      else sin (phi s) * (1 - l_k (L s)) - cos (phi s) / (Vy s / Vx s) * (1 - KP s)).
  assert (Ef : forall s, f s = (FZ s, A s, AP s)).
  { intros s. unfold f, FZ, A, AP, KP, L. unfold inductionFactors. cbv zeta.
    change (@nlt R R_arith (ofR 0) (phi s)) with (rltb 0 (phi s)). reflexivity. }
  assert (Ed : iv_a d = fst AD /\ iv_ad d = snd AD /\ iv_ap d = APV /\ iv_apd d nd = APD /\
    iv_fzero d = (if rltb 0 (phi t) then v_sphi D / (- fst AD + 1) - (1 - KPV) * (v_cphi D / (Vy t / Vx t))
                  else v_sphi D * (1 - v_k D) - (1 - KPV) * (v_cphi D / (Vy t / Vx t))) /\
    iv_fzerod d nd =
      (let lrd := (vyd nd - Vy t * vxd nd / Vx t) / Vx t in
       let lr := Vy t / Vx t in
       let temp := v_cphi D / lr in
       if rltb 0 (phi t) then
         (v_sphid D nd + v_sphi D / (- fst AD + 1) * snd AD nd) / (1 - fst AD)
         - (1 - KPV) * (v_cphid D nd - temp * lrd) / lr + temp * KPD
       else (1 - v_k D) * v_sphid D nd - v_sphi D * v_kd D nd
         - (1 - KPV) * (v_cphid D nd - temp * lrd) / lr + temp * KPD)).
  { unfold d, inductionFactors_dv. cbv zeta. fold D. fold AD. destruct AD as [av adv]. cbn [fst snd].
    unfold APV, APD, KPV, KPD.
    destruct (wakerotation o); cbn [negb]; destruct (rltb 0 (phi t)); repeat split; reflexivity. }
  destruct Ed as (D1 & D2 & D3 & D4 & D5 & D6).
  assert (Nl : Vy t / Vx t <> 0) by (apply Rmult_integral_contrapositive_currified; [assumption|apply Rinv_neq_0_compat; assumption]).
  split; [|split; [|split]].
  - rewrite Ef, D1, D3, D5, EA, EAP, EKP, Es, Ec, <- EK. repeat apply (f_equal2 pair); try reflexivity.
    unfold FZ. destruct (rltb 0 (phi t)) eqn:S; rb_hyps.
    + specialize (NA S). field. repeat split; auto. intros E; apply NA; lra.
    + field. auto.
  - apply (is_derive_ext FZ); [intros s; rewrite Ef; reflexivity|].
    rewrite D6, EA, EKP, Es, Ec, Esd, Ecd, <- EK. cbv zeta.
    destruct (rltb 0 (phi t)) eqn:S; rb_hyps.
    + specialize (NA S).
      apply (is_derive_ext_loc (fun s => sin (phi s) / (1 - A s) - cos (phi s) / (Vy s / Vx s) * (1 - KP s))).
      { generalize (near_pos phi t _ Hphi S). apply filter_imp. intros s Hs. unfold FZ.
        replace (rltb 0 (phi s)) with true by (symmetry; apply rltb_true; exact Hs). reflexivity. }
      der; try assumption.
      field; repeat split; auto; intros E; apply NA; lra.
    + assert (N : phi t < 0) by (destruct S as [|E]; [assumption|exfalso; apply s0; rewrite E; apply sin_0]).
      apply (is_derive_ext_loc (fun s => sin (phi s) * (1 - l_k (L s)) - cos (phi s) / (Vy s / Vx s) * (1 - KP s))).
      { generalize (near_neg phi t _ Hphi N). apply filter_imp. intros s Hs. unfold FZ.
        replace (rltb 0 (phi s)) with false by (symmetry; apply rltb_false; lra). reflexivity. }
      der; try assumption.
      field. auto.
  - apply (is_derive_ext A); [intros s; rewrite Ef; reflexivity|]. rewrite D2. exact DA.
  - apply (is_derive_ext AP); [intros s; rewrite Ef; reflexivity|]. rewrite D4. exact DAP.
Qed.
