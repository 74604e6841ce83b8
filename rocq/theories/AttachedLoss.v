(** How Prandtl's loss factor changes with the inflow angle, and induction with loss factor, loading and angle (C134). *)
From Coquelicot Require Import Coquelicot.
From Coq Require Import Reals Bool Arith Lra Lia Psatz.
From Verif Require Import Prelim Num Bem IndSpec IndProofs.
Open Scope R_scope.

(** A function with a derivative that is nowhere positive does not rise. *)
Lemma no_rise (f f' : R -> R) b : 0 <= b -> (forall x, 0 <= x <= b -> is_derive f x (f' x)) -> (forall x, 0 <= x <= b -> f' x <= 0) -> f b <= f 0.
Proof.
  intros Hb D N. destruct (MVT_gen f 0 b f') as (c & C & E).
  - intros x Hx. rewrite Rmin_left, Rmax_right in Hx by lra. apply D. lra.
  - intros x Hx. rewrite Rmin_left, Rmax_right in Hx by lra. apply continuity_pt_filterlim. apply (ex_derive_continuous f). exists (f' x). apply D. lra.
  - rewrite Rmin_left, Rmax_right in C by lra. specialize (N c C). assert (0 <= - f' c * (b - 0)) by (apply Rmult_le_pos; lra). lra.
Qed.

Lemma tan_scale m x : 0 < m <= 1 -> 0 <= x < PI / 2 -> tan (m * x) <= m * tan x.
Proof.
  intros Hm Hx. assert (CP : forall y, 0 <= y <= x -> 0 < cos y) by (intros y Hy; apply cos_gt_0; lra).
  assert (CM : forall y, 0 <= y <= x -> cos y <= cos (m * y) /\ 0 < cos (m * y)).
  { intros y Hy. assert (0 <= m * y) by (apply Rmult_le_pos; lra). assert (m * y <= y) by nra. split; [|apply cos_gt_0; lra]. destruct (Req_dec (m * y) y) as [->|]; [lra|]. left. apply cos_decreasing_1; lra. }
  pose proof (no_rise (fun y => tan (m * y) - m * tan y) (fun y => m * (1 / cos (m * y) ^ 2 - 1 / cos y ^ 2)) x ltac:(lra)) as H.
  assert (G : tan (m * x) - m * tan x <= tan (m * 0) - m * tan 0).
  { apply H.
    - intros y Hy. destruct (CM y Hy) as [_ C2]. pose proof (CP y Hy). unfold tan. auto_derive; [repeat split; lra|]. pose proof (sin2_cos2 y) as S1. pose proof (sin2_cos2 (m * y)) as S2. unfold Rsqr in S1, S2.
      transitivity (m * ((cos (m * y) * cos (m * y) + sin (m * y) * sin (m * y)) / cos (m * y) ^ 2) - m * ((cos y * cos y + sin y * sin y) / cos y ^ 2)); [field; lra|].
      replace (cos (m * y) * cos (m * y) + sin (m * y) * sin (m * y)) with 1 by lra. replace (cos y * cos y + sin y * sin y) with 1 by lra. ring.
    - intros y Hy. destruct (CM y Hy) as [C1 C2]. pose proof (CP y Hy) as C3. assert (cos y ^ 2 <= cos (m * y) ^ 2) by nra. assert (0 < cos y ^ 2) by nra.
      assert (1 / cos (m * y) ^ 2 <= 1 / cos y ^ 2) by (unfold Rdiv; apply Rmult_le_compat_l; [lra|apply Rinv_le_contravar; lra]). assert (0 <= m * (1 / cos y ^ 2 - 1 / cos (m * y) ^ 2)) by (apply Rmult_le_pos; lra). lra. }
  rewrite Rmult_0_r, tan_0 in G. lra.
Qed.

(** - ln cos (m x) is at most m^2 times - ln cos x. *)
Lemma lncos_scale m x : 0 < m <= 1 -> 0 <= x < PI / 2 -> m ^ 2 * ln (cos x) <= ln (cos (m * x)).
Proof.
  intros Hm Hx.
  assert (CP : forall y, 0 <= y <= x -> 0 < cos y /\ 0 < cos (m * y)).
  { intros y Hy. assert (0 <= m * y) by (apply Rmult_le_pos; lra). assert (m * y <= y) by nra. split; apply cos_gt_0; lra. }
  pose proof (no_rise (fun y => m ^ 2 * ln (cos y) - ln (cos (m * y))) (fun y => m * (tan (m * y) - m * tan y)) x ltac:(lra)) as H.
  assert (G : m ^ 2 * ln (cos x) - ln (cos (m * x)) <= m ^ 2 * ln (cos 0) - ln (cos (m * 0))).
  { apply H.
    - intros y Hy. destruct (CP y Hy) as [C1 C2]. unfold tan. auto_derive; [repeat split; lra|]. field. lra.
    - intros y Hy. pose proof (tan_scale m y Hm ltac:(lra)). assert (0 <= m * (m * tan y - tan (m * y))) by (apply Rmult_le_pos; lra). lra. }
  rewrite Rmult_0_r, cos_0, ln_1 in G. lra.
Qed.

(** arccos (exp (- c / s)): falls with s, and rises with s when multiplied by the square root of s. *)
Definition edge (c s : R) : R := acos (exp (- (c / s))).
Lemma edge_facts c s : 0 < c -> 0 < s -> 0 < edge c s < PI / 2 /\ ln (cos (edge c s)) = - (c / s).
Proof.
  intros Hc Hs. assert (0 < c / s) by (apply Rdiv_lt_0_compat; lra). pose proof (exp_neg_unit _ H) as U. unfold edge. split; [apply acos_unit; exact U|]. rewrite cos_acos by lra. apply ln_exp.
Qed.
Lemma edge_le c s c' s' x x' : x = edge c s -> x' = edge c' s' -> 0 < c -> 0 < s -> 0 < c' -> 0 < s' -> forall m, 0 < m <= 1 -> c' / s' >= m ^ 2 * (c / s) -> m * x <= x'.
Proof.
  intros -> -> Hc Hs Hc' Hs' m Hm H. destruct (edge_facts c s Hc Hs) as [E1 E2]. destruct (edge_facts c' s' Hc' Hs') as [E1' E2'].
  pose proof (lncos_scale m (edge c s) Hm ltac:(lra)) as L. rewrite E2 in L. set (x := edge c s) in *. set (x' := edge c' s') in *.
  assert (MX : 0 < m * x <= x) by (split; [apply Rmult_lt_0_compat; lra|nra]).
  apply Rnot_lt_le. intros N. assert (C : cos (m * x) < cos x') by (apply cos_decreasing_1; lra). assert (0 < cos (m * x)) by (apply cos_gt_0; lra).
  pose proof (ln_increasing _ _ H0 C). lra.
Qed.
Lemma edge_falls c s s' : 0 < c -> 0 < s <= s' -> edge c s' <= edge c s.
Proof.
  intros Hc Hs. replace (edge c s') with (1 * edge c s') by ring. apply (edge_le c s' c s); auto; try lra.
  apply Rle_ge. replace (1 ^ 2 * (c / s')) with (c / s') by ring. unfold Rdiv. apply Rmult_le_compat_l; [lra|]. apply Rinv_le_contravar; lra.
Qed.
Lemma edge_sqrt c s s' : 0 < c -> 0 < s <= s' -> sqrt s * edge c s <= sqrt s' * edge c s'.
Proof.
  intros Hc Hs. assert (Q : 0 < sqrt s) by (apply sqrt_lt_R0; lra). assert (Q' : sqrt s <= sqrt s') by (apply sqrt_le_1_alt; lra).
  pose proof (sqrt_sqrt s ltac:(lra)) as E. pose proof (sqrt_sqrt s' ltac:(lra)) as E'. set (q := sqrt s) in *. set (q' := sqrt s') in *.
  assert (M : 0 < q / q' <= 1) by (split; [apply Rdiv_lt_0_compat; lra|apply (Rmult_le_reg_r q'); [lra|]; unfold Rdiv; rewrite Rmult_assoc, Rinv_l by lra; lra]).
  assert (L : q / q' * edge c s <= edge c s').
  { apply (edge_le c s c s' _ _ eq_refl eq_refl Hc ltac:(lra) Hc ltac:(lra) (q / q') M). right. rewrite <- E, <- E'. field. split; [|lra]. apply Rgt_not_eq. lra. }
  apply (Rmult_le_compat_l q') in L; [|lra]. replace (q' * (q / q' * edge c s)) with (q * edge c s) in L by (field; lra). exact L.
Qed.

(** The loss factor falls with the angle; times the sine it does not. *)
Lemma prandtl_edge B d l phi : l <> 0 -> sin phi <> 0 -> prandtl B d l phi = 2 / PI * edge (INR B * d / (2 * l)) (sin phi).
Proof. intros Hl Hs. unfold prandtl, edge. do 4 f_equal. field. split; assumption. Qed.

Lemma loss_falls o B r Rhub Rtip a b : (1 <= B)%nat -> 0 < Rhub < r -> r < Rtip -> 0 < a -> a < b -> b < PI / 2 ->
  lossF o B r Rhub Rtip b <= lossF o B r Rhub Rtip a /\ lossF o B r Rhub Rtip a * sin a <= lossF o B r Rhub Rtip b * sin b.
Proof.
  intros HB Hr HT Ha Hab Hb. assert (Sa : 0 < sin a) by (apply sin_gt_0; lra). assert (SS : sin a < sin b) by (apply sin_increasing_1; lra).
  assert (HI : 0 < INR B) by (apply lt_0_INR; lia). pose proof PI_RGT_0 as HP. assert (P2 : 0 < 2 / PI) by (apply Rdiv_lt_0_compat; lra).
  assert (G : forall on d l, 0 < d -> 0 < l -> let f x := if on : bool then prandtl B d l x else 1 in 0 < f a /\ 0 < f b <= f a /\ sqrt (sin a) * f a <= sqrt (sin b) * f b).
  { intros on d l Hd Hl f. unfold f. destruct on.
    - rewrite !prandtl_edge by (apply Rgt_not_eq; lra). set (c := INR B * d / (2 * l)). assert (Hc : 0 < c) by (unfold c; apply Rdiv_lt_0_compat; [apply Rmult_lt_0_compat; lra|lra]).
      destruct (edge_facts c (sin a) Hc Sa) as [[E1 _] _]. destruct (edge_facts c (sin b) Hc ltac:(lra)) as [[E2 _] _].
      pose proof (edge_falls c (sin a) (sin b) Hc ltac:(lra)). pose proof (edge_sqrt c (sin a) (sin b) Hc ltac:(lra)).
      split; [apply Rmult_lt_0_compat; lra|]. split; [split; [apply Rmult_lt_0_compat; lra|apply Rmult_le_compat_l; lra]|].
      replace (sqrt (sin a) * (2 / PI * edge c (sin a))) with (2 / PI * (sqrt (sin a) * edge c (sin a))) by ring. replace (sqrt (sin b) * (2 / PI * edge c (sin b))) with (2 / PI * (sqrt (sin b) * edge c (sin b))) by ring.
      apply Rmult_le_compat_l; lra.
    - rewrite !Rmult_1_r. split; [lra|]. split; [lra|]. apply sqrt_le_1_alt. lra. }
  destruct (G (tipLoss o) (Rtip - r) r ltac:(lra) ltac:(lra)) as (A1 & A2 & A3). destruct (G (hubLoss o) (r - Rhub) Rhub ltac:(lra) ltac:(lra)) as (B1 & B2 & B3). clear G.
  unfold lossF. cbv beta in *.
  set (g1 := if hubLoss o then prandtl B (r - Rhub) Rhub a else 1) in *. set (g2 := if hubLoss o then prandtl B (r - Rhub) Rhub b else 1) in *.
  set (h1 := if tipLoss o then prandtl B (Rtip - r) r a else 1) in *. set (h2 := if tipLoss o then prandtl B (Rtip - r) r b else 1) in *.
  split; [apply Rmult_le_compat; lra|].
  pose proof (sqrt_pos (sin a)). pose proof (sqrt_sqrt (sin a) ltac:(lra)) as Qa. pose proof (sqrt_sqrt (sin b) ltac:(lra)) as Qb.
  replace (h1 * g1 * sin a) with (sqrt (sin a) * h1 * (sqrt (sin a) * g1)) by (transitivity (h1 * g1 * (sqrt (sin a) * sqrt (sin a))); [ring|rewrite Qa; reflexivity]). replace (h2 * g2 * sin b) with (sqrt (sin b) * h2 * (sqrt (sin b) * g2)) by (transitivity (h2 * g2 * (sqrt (sin b) * sqrt (sin b))); [ring|rewrite Qb; reflexivity]).
  apply Rmult_le_compat; try lra; apply Rmult_le_pos; lra.
Qed.

(** 1/(1 - a) as a function of loss factor and loading. *)
Definition hk (F k : R) : R := if Rle_dec k (2 / 3) then 1 + k else sqrt (g2 k F) + 5 / 3 - F.

Lemma hk_axial F k : 0 < F <= 1 -> - 1 < k -> (2 / 3 < k -> 1 / 1000000 <= Rabs (band F k)) -> 1 / (1 - axial_pos k F) = hk F k.
Proof.
  intros HF Hk HB. unfold hk. destruct (Rle_dec k (2 / 3)) as [H|H].
  - rewrite axial_low by assumption. field. lra.
  - apply Rnot_le_lt in H. rewrite axial_high by auto. pose proof (sqrt_g2_gt k F H ltac:(lra)). field. lra.
Qed.

(** Loadings above 2/3: the excess d of 1/(1-a) over 5/3. *)
Lemma hk_high F k : 0 < F -> 2 / 3 < k -> exists d, 0 < d /\ hk F k = d + 5 / 3 /\ d ^ 2 + 2 * F * (d + 2 / 3) = 2 * F * k.
Proof.
  intros HF H. exists (sqrt (g2 k F) - F). pose proof (sqrt_g2_gt k F H HF). pose proof (g2_gt k F H HF) as G. pose proof (sqrt_g2_sqr k F ltac:(nra)) as Q.
  split; [lra|]. split; [unfold hk; destruct (Rle_dec k (2 / 3)); lra|]. set (q := sqrt (g2 k F)) in *. replace ((q - F) ^ 2) with (q * q - 2 * q * F + F ^ 2) by ring. rewrite Q. unfold g2. field.
Qed.
Lemma hk_low F k : k <= 2 / 3 -> hk F k = 1 + k.
Proof. intros H. unfold hk. destruct (Rle_dec k (2 / 3)); [reflexivity|contradiction]. Qed.

(** More thrust on the blade, or less loss factor: more induction. *)
Lemma hk_mono F F' y y' : 0 < F' <= F -> 0 <= y <= y' -> hk F (y / F) <= hk F' (y' / F').
Proof.
  intros HF Hy. assert (K : y / F <= y' / F').
  { unfold Rdiv. apply Rmult_le_compat; [lra|left; apply Rinv_0_lt_compat; lra|lra|apply Rinv_le_contravar; lra]. }
  destruct (Rle_lt_dec (y / F) (2 / 3)) as [A|A], (Rle_lt_dec (y' / F') (2 / 3)) as [B|B].
  - rewrite !hk_low by assumption. lra.
  - rewrite hk_low by assumption. destruct (hk_high F' _ ltac:(lra) B) as (d & D & -> & _). lra.
  - lra.
  - destruct (hk_high F _ ltac:(lra) A) as (d & D & -> & E). destruct (hk_high F' _ ltac:(lra) B) as (d' & D' & -> & E').
    replace (2 * F * (y / F)) with (2 * y) in E by (field; lra). replace (2 * F' * (y' / F')) with (2 * y') in E' by (field; lra).
    apply Rplus_le_compat_r. apply Rnot_lt_le. intros N. assert (d' ^ 2 < d ^ 2) by nra. assert (F' * (d' + 2 / 3) <= F * (d + 2 / 3)) by (apply Rmult_le_compat; lra). lra.
Qed.

(** t * h (y / (F t^2)) grows with t: below and above a loading of 2/3. *)
Lemma grows_low t1 t2 z : 0 < t1 < t2 -> 0 <= z -> z / t1 ^ 2 <= 2 / 3 -> t1 + z / t1 < t2 + z / t2.
Proof.
  intros Ht Hz K. assert (P : 0 < t1 ^ 2) by (apply pow_lt; lra). assert (Z : z <= 2 / 3 * t1 ^ 2) by (apply (Rmult_le_compat_r (t1 ^ 2)) in K; [|lra]; unfold Rdiv in K at 1; rewrite Rmult_assoc, Rinv_l in K; lra).
  assert (E : t2 + z / t2 - (t1 + z / t1) = (t2 - t1) * ((t1 * t2 - z) / (t1 * t2))) by (field; lra).
  assert (0 < t1 * t2) by nra. assert (0 < (t2 - t1) * ((t1 * t2 - z) / (t1 * t2))); [|lra]. apply Rmult_lt_0_compat; [lra|]. apply Rdiv_lt_0_compat; [nra|lra].
Qed.
Lemma grows_high F t1 t2 e1 e2 : 0 < F <= 1 -> 0 < t1 < t2 -> 0 < e1 -> 0 <= e2 -> e1 ^ 2 + 2 * F * e1 * t1 + 4 / 3 * F * t1 ^ 2 = e2 ^ 2 + 2 * F * e2 * t2 + 4 / 3 * F * t2 ^ 2 ->
  e1 + 5 / 3 * t1 < e2 + 5 / 3 * t2.
Proof.
  intros HF Ht E1 E2 E. apply Rnot_le_lt. intros N. set (dt := t2 - t1) in *. set (e := e1 - 5 / 3 * dt). assert (He : e2 <= e) by (unfold e, dt; lra).
  assert (D0 : 0 < dt) by (unfold dt; lra). assert (T2 : t2 = t1 + dt) by (unfold dt; lra). clearbody dt. subst t2.
  assert (M : e2 ^ 2 + 2 * F * e2 * (t1 + dt) <= e ^ 2 + 2 * F * e * (t1 + dt)).
  { assert (e2 ^ 2 <= e ^ 2) by (apply pow_incr; lra). assert (2 * F * e2 <= 2 * F * e) by (apply Rmult_le_compat_l; lra). assert (2 * F * e2 * (t1 + dt) <= 2 * F * e * (t1 + dt)) by (apply Rmult_le_compat_r; lra). lra. }
  assert (I : e ^ 2 + 2 * F * e * (t1 + dt) + 4 / 3 * F * (t1 + dt) ^ 2 - (e1 ^ 2 + 2 * F * e1 * t1 + 4 / 3 * F * t1 ^ 2) = - dt * (e * (5 / 3 - 6 / 5 * F) + e1 * (5 / 3 - 4 / 5 * F) + 2 / 3 * F * t1)).
  { unfold e. field. }
  assert (0 < dt * (e * (5 / 3 - 6 / 5 * F) + e1 * (5 / 3 - 4 / 5 * F) + 2 / 3 * F * t1)); [|lra].
  apply Rmult_lt_0_compat; [exact D0|]. assert (0 <= e * (5 / 3 - 6 / 5 * F)) by (apply Rmult_le_pos; lra). assert (0 < e1 * (5 / 3 - 4 / 5 * F)) by (apply Rmult_lt_0_compat; lra). assert (0 < F * t1) by nra. lra.
Qed.
Lemma hk_grows F t1 t2 y : 0 < F <= 1 -> 0 < t1 < t2 -> 0 <= y -> t1 * hk F (y / t1 ^ 2 / F) < t2 * hk F (y / t2 ^ 2 / F).
Proof.
  intros HF Ht Hy. set (z := y / F). assert (Z : 0 <= z) by (unfold z, Rdiv; apply Rmult_le_pos; [lra|left; apply Rinv_0_lt_compat; lra]).
  assert (EK : forall t, 0 < t -> y / t ^ 2 / F = z / t ^ 2) by (intros t T; unfold z; field; lra). rewrite !EK by lra.
  assert (LO : forall t, 0 < t -> z / t ^ 2 <= 2 / 3 -> t * hk F (z / t ^ 2) = t + z / t) by (intros t T K; rewrite hk_low by exact K; field; lra).
  assert (HI : forall t, 0 < t -> 2 / 3 < z / t ^ 2 -> exists e, 0 < e /\ t * hk F (z / t ^ 2) = e + 5 / 3 * t /\ e ^ 2 + 2 * F * e * t + 4 / 3 * F * t ^ 2 = 2 * F * z).
  { intros t T K. destruct (hk_high F _ ltac:(lra) K) as (d & D & -> & E). exists (t * d). split; [nra|]. split; [ring|]. apply (f_equal (fun x => x * t ^ 2)) in E. replace (2 * F * (z / t ^ 2) * t ^ 2) with (2 * F * z) in E by (field; lra). rewrite <- E. field. }
  assert (KD : z / t2 ^ 2 <= z / t1 ^ 2) by (unfold Rdiv; apply Rmult_le_compat_l; [exact Z|]; apply Rinv_le_contravar; [apply pow_lt; lra|apply pow_incr; lra]).
  destruct (Rle_lt_dec (z / t1 ^ 2) (2 / 3)) as [A|A].
  - rewrite !LO by lra. apply grows_low; assumption.
  - destruct (HI t1 ltac:(lra) A) as (e1 & P1 & -> & Q1). destruct (Rle_lt_dec (z / t2 ^ 2) (2 / 3)) as [B|B].
    + rewrite LO by lra. set (ts := sqrt (3 / 2 * z)).
      assert (SQ : ts ^ 2 = 3 / 2 * z) by (unfold ts; replace (sqrt (3 / 2 * z) ^ 2) with (sqrt (3 / 2 * z) * sqrt (3 / 2 * z)) by ring; apply sqrt_sqrt; lra).
      assert (TP : 0 <= ts) by apply sqrt_pos. clearbody ts. assert (W1 : 0 < t1 ^ 2) by (apply pow_lt; lra). assert (W2 : 0 < t2 ^ 2) by (apply pow_lt; lra).
      assert (Z1 : 2 / 3 * t1 ^ 2 < z) by (apply (Rmult_lt_compat_r (t1 ^ 2)) in A; [|lra]; unfold Rdiv in A at 2; rewrite Rmult_assoc, Rinv_l in A; lra).
      assert (Z2 : z <= 2 / 3 * t2 ^ 2) by (apply (Rmult_le_compat_r (t2 ^ 2)) in B; [|lra]; unfold Rdiv in B at 1; rewrite Rmult_assoc, Rinv_l in B; lra).
      assert (T1 : t1 < ts) by (apply Rnot_le_lt; intros N; assert (ts ^ 2 <= t1 ^ 2) by (apply pow_incr; lra); lra).
      assert (T2 : ts <= t2) by (apply Rnot_lt_le; intros N; assert (t2 ^ 2 < ts ^ 2) by nra; lra).
      pose proof (grows_high F t1 ts e1 0 HF ltac:(lra) P1 ltac:(lra)) as G. assert (G' : e1 + 5 / 3 * t1 < 0 + 5 / 3 * ts) by (apply G; rewrite Q1, SQ; field).
      assert (SE : ts + z / ts = 5 / 3 * ts) by (replace z with (2 / 3 * ts ^ 2) by lra; field; lra).
      destruct (Req_dec ts t2) as [<-|D]; [lra|]. assert (KS : z / ts ^ 2 <= 2 / 3) by (rewrite SQ; right; field; lra). pose proof (grows_low ts t2 z ltac:(lra) Z KS). lra.
    + destruct (HI t2 ltac:(lra) B) as (e2 & P2 & -> & Q2). apply (grows_high F); lra.
Qed.

(** Two angles with tangents t, cosines c and loss factors F, and y the lift coefficient times a constant over the cosine: not both are zeros. *)
Lemma angle_unique lam w t1 t2 c1 c2 y1 y2 F1 F2 : 0 < lam -> 0 <= w -> 0 < t1 < t2 -> 0 < c2 < c1 -> 0 < F2 <= F1 -> F1 <= 1 -> F1 * (t1 * c1) <= F2 * (t2 * c2) -> y1 * c1 <= y2 * c2 ->
  t1 * hk F1 (y1 / t1 ^ 2 / F1) = lam * (1 - w * (y1 / F1)) -> t2 * hk F2 (y2 / t2 ^ 2 / F2) = lam * (1 - w * (y2 / F2)) -> False.
Proof.
  intros Hl Hw Ht Hc HF HF1 Hs Hy E1 E2. assert (P1 : 0 < t1 ^ 2) by (apply pow_lt; lra). assert (P2 : 0 < t2 ^ 2) by (apply pow_lt; lra).
  assert (K : forall t y F, 0 < t -> 0 < F -> y < 0 -> t * hk F (y / t ^ 2 / F) = t + y / (F * t)).
  { intros t y F T HFF Y. assert (y / t ^ 2 / F < 0).
    { unfold Rdiv. assert (0 < - y * / t ^ 2 * / F); [|lra]. repeat apply Rmult_lt_0_compat; try lra; apply Rinv_0_lt_compat; [apply pow_lt|]; lra. }
    rewrite hk_low by lra. field. lra. }
  destruct (Rle_lt_dec 0 y1) as [Y1|Y1].
  { assert (Y2 : y1 <= y2). { apply Rnot_lt_le. intros N. assert (y2 * c2 < y1 * c2) by (apply Rmult_lt_compat_r; lra). assert (y1 * c2 <= y1 * c1) by (apply Rmult_le_compat_l; lra). lra. }
    pose proof (hk_grows F1 t1 t2 y1 ltac:(lra) Ht Y1) as G.
    assert (I2 : 0 < / t2 ^ 2) by (apply Rinv_0_lt_compat; lra).
    assert (M : hk F1 (y1 / t2 ^ 2 / F1) <= hk F2 (y2 / t2 ^ 2 / F2)) by (apply hk_mono; [lra|]; unfold Rdiv; split; [apply Rmult_le_pos; lra|apply Rmult_le_compat_r; lra]).
    apply (Rmult_le_compat_l t2) in M; [|lra].
    assert (YF : y1 / F1 <= y2 / F2) by (unfold Rdiv; apply Rmult_le_compat; [lra|left; apply Rinv_0_lt_compat; lra|lra|apply Rinv_le_contravar; lra]).
    assert (w * (y1 / F1) <= w * (y2 / F2)) by (apply Rmult_le_compat_l; lra). assert (lam * (1 - w * (y2 / F2)) <= lam * (1 - w * (y1 / F1))) by (apply Rmult_le_compat_l; lra). lra. }
  rewrite K in E1 by lra.
  assert (S : forall t y F, 0 < t -> 0 < F -> t + y / (F * t) = lam * (1 - w * (y / F)) -> - y * (1 + w * lam * t) = F * t * (t - lam)).
  { intros t y F T HFF E. assert (E' : F * t * (t + y / (F * t)) = F * t * (lam * (1 - w * (y / F)))) by (rewrite E; reflexivity).
    replace (F * t * (t + y / (F * t))) with (F * t ^ 2 + y) in E' by (field; lra). replace (F * t * (lam * (1 - w * (y / F)))) with (lam * (F * t - w * y * t)) in E' by (field; lra). lra. }
  apply S in E1; [|lra|lra]. set (z1 := - y1) in *. assert (Z1 : 0 < z1) by (unfold z1; lra).
  assert (WL : 0 <= w * lam) by (apply Rmult_le_pos; lra).
  set (d1 := 1 + w * lam * t1) in *. assert (D1 : 1 <= d1) by (unfold d1; assert (0 <= w * lam * t1) by (apply Rmult_le_pos; lra); lra).
  assert (T1 : lam < t1). { apply Rnot_le_lt. intros N. assert (0 < z1 * d1) by (apply Rmult_lt_0_compat; lra). assert (0 <= F1 * t1 * (lam - t1)) by (apply Rmult_le_pos; [apply Rmult_le_pos; lra|lra]). lra. }
  destruct (Rle_lt_dec 0 y2) as [Y2|Y2].
  { assert (H0 : hk F2 (0 / F2) <= hk F2 (y2 / t2 ^ 2 / F2)) by (apply hk_mono; [lra|]; split; [lra|]; unfold Rdiv; apply Rmult_le_pos; [lra|left; apply Rinv_0_lt_compat; lra]).
    replace (0 / F2) with 0 in H0 by (unfold Rdiv; ring). rewrite hk_low in H0 by lra. apply (Rmult_le_compat_l t2) in H0; [|lra].
    assert (0 <= w * (y2 / F2)) by (apply Rmult_le_pos; [lra|]; unfold Rdiv; apply Rmult_le_pos; [lra|left; apply Rinv_0_lt_compat; lra]). assert (lam * (1 - w * (y2 / F2)) <= lam * 1) by (apply Rmult_le_compat_l; lra). lra. }
  rewrite K in E2 by lra. apply S in E2; [|lra|lra]. set (z2 := - y2) in *. assert (Z2 : 0 < z2) by (unfold z2; lra). assert (Z : z2 * c2 <= z1 * c1) by (unfold z1, z2; lra). clearbody z1 z2. clear Hy K S Y1 Y2.
  set (d2 := 1 + w * lam * t2) in *. assert (D2 : 1 <= d2) by (unfold d2; assert (0 <= w * lam * t2) by (apply Rmult_le_pos; lra); lra).
  assert (M : (t1 - lam) * d2 < (t2 - lam) * d1).
  { unfold d1, d2. assert (0 <= w * lam * lam) by (apply Rmult_le_pos; lra). assert (0 < (t2 - t1) * (1 + w * lam * lam)) by (apply Rmult_lt_0_compat; lra). lra. }
  assert (A2 : z2 * c2 * (d1 * d2) = F2 * (t2 * c2) * ((t2 - lam) * d1)) by (transitivity (z2 * d2 * (c2 * d1)); [ring|rewrite E2; ring]).
  assert (A1 : z1 * c1 * (d1 * d2) = F1 * (t1 * c1) * ((t1 - lam) * d2)) by (transitivity (z1 * d1 * (c1 * d2)); [ring|rewrite E1; ring]).
  assert (Q : 0 < (t1 - lam) * d2) by (apply Rmult_lt_0_compat; lra). assert (Q1 : 0 < F1 * (t1 * c1)) by (apply Rmult_lt_0_compat; [lra|apply Rmult_lt_0_compat; lra]).
  assert (B1 : F1 * (t1 * c1) * ((t1 - lam) * d2) < F1 * (t1 * c1) * ((t2 - lam) * d1)) by (apply Rmult_lt_compat_l; lra).
  assert (B2 : F1 * (t1 * c1) * ((t2 - lam) * d1) <= F2 * (t2 * c2) * ((t2 - lam) * d1)) by (apply Rmult_le_compat_r; lra).
  assert (z2 * c2 * (d1 * d2) <= z1 * c1 * (d1 * d2)) by (apply Rmult_le_compat_r; [apply Rmult_le_pos; lra|exact Z]). lra.
Qed.

(** The same with drag, q and e the lift and drag coefficients times a constant, both not negative and not falling. *)
Lemma angle_unique_drag lam w t1 t2 c1 c2 q1 q2 e1 e2 F1 F2 : 0 < lam -> 0 <= w -> 0 < t1 < t2 -> 0 < c2 < c1 -> 0 < F2 <= F1 -> F1 <= 1 -> F1 * (t1 * c1) <= F2 * (t2 * c2) ->
  0 <= q1 <= q2 -> 0 <= e1 <= e2 -> w = 0 \/ e1 = e2 ->
  t1 * hk F1 ((q1 + e1 * t1) / c1 / t1 ^ 2 / F1) = lam * (1 - w * (q1 / (c1 * F1) - e1 / (F1 * (t1 * c1)))) ->
  t2 * hk F2 ((q2 + e2 * t2) / c2 / t2 ^ 2 / F2) = lam * (1 - w * (q2 / (c2 * F2) - e2 / (F2 * (t2 * c2)))) -> False.
Proof.
  intros Hl Hw Ht Hc HF HF1 Hs Hq He HW E1 E2. set (y1 := (q1 + e1 * t1) / c1) in *. set (y2 := (q2 + e2 * t2) / c2) in *.
  assert (I1 : 0 < / c1) by (apply Rinv_0_lt_compat; lra). assert (I2 : 0 < / t2 ^ 2) by (apply Rinv_0_lt_compat, pow_lt; lra).
  assert (N1 : 0 <= q1 + e1 * t1) by (assert (0 <= e1 * t1) by (apply Rmult_le_pos; lra); lra).
  assert (N2 : q1 + e1 * t1 <= q2 + e2 * t2) by (assert (e1 * t1 <= e2 * t2) by (apply Rmult_le_compat; lra); lra).
  assert (Y : 0 <= y1 <= y2).
  { unfold y1, y2, Rdiv. split; [apply Rmult_le_pos; lra|]. apply Rmult_le_compat; [lra|lra|lra|]. apply Rinv_le_contravar; lra. }
  pose proof (hk_grows F1 t1 t2 y1 ltac:(lra) Ht (proj1 Y)) as G.
  assert (M : hk F1 (y1 / t2 ^ 2 / F1) <= hk F2 (y2 / t2 ^ 2 / F2)) by (apply hk_mono; [lra|]; unfold Rdiv; split; [apply Rmult_le_pos; lra|apply Rmult_le_compat_r; lra]).
  apply (Rmult_le_compat_l t2) in M; [|lra].
  assert (W : w * (q1 / (c1 * F1) - e1 / (F1 * (t1 * c1))) <= w * (q2 / (c2 * F2) - e2 / (F2 * (t2 * c2)))).
  { destruct HW as [-> | <-]; [lra|]. apply Rmult_le_compat_l; [exact Hw|].
    assert (Q : q1 / (c1 * F1) <= q2 / (c2 * F2)).
    { unfold Rdiv. apply Rmult_le_compat; [lra|left; apply Rinv_0_lt_compat, Rmult_lt_0_compat; lra|lra|]. apply Rinv_le_contravar; [apply Rmult_lt_0_compat; lra|]. apply Rmult_le_compat; lra. }
    assert (D : e1 / (F2 * (t2 * c2)) <= e1 / (F1 * (t1 * c1))).
    { unfold Rdiv. apply Rmult_le_compat_l; [lra|]. apply Rinv_le_contravar; [|lra]. apply Rmult_lt_0_compat; [lra|apply Rmult_lt_0_compat; lra]. }
    lra. }
  set (w1 := w * _) in E1, W. set (w2 := w * _) in E2, W. assert (lam * (1 - w2) <= lam * (1 - w1)) by (apply Rmult_le_compat_l; lra). lra.
Qed.
