(** Lemmas for the effect of losses on the induction (C135). *)
From Coquelicot Require Import Coquelicot.
From Coq Require Import Reals Bool Arith Lra Lia Psatz.
From Verif Require Import Prelim Num Bem IndSpec IndProofs DragStation AttachedSpec AttachedLoss LossRaiseSpec.
Open Scope R_scope.

Lemma edge_rises c c' s : 0 < c <= c' -> 0 < s -> edge c s <= edge c' s.
Proof.
  intros Hc Hs. replace (edge c s) with (1 * edge c s) by ring. apply (edge_le c s c' s); auto; try lra.
  apply Rle_ge. replace (1 ^ 2 * (c / s)) with (c / s) by ring. unfold Rdiv. apply Rmult_le_compat_r; [left; apply Rinv_0_lt_compat; lra|lra].
Qed.

Lemma loss_lower o o' B r Rhub Rtip Rhub' Rtip' phi : more_losses o o' -> closer r Rhub Rtip Rhub' Rtip' -> (1 <= B)%nat -> 0 < phi < PI ->
  0 < lossF o' B r Rhub' Rtip' phi <= lossF o B r Rhub Rtip phi /\ lossF o B r Rhub Rtip phi <= 1.
Proof.
  intros (_ & _ & T & H) ((C1 & C2) & (C3 & C4) & C5) HB Hp. assert (Hs : 0 < sin phi) by (apply sin_gt_0; lra). assert (HI : 0 < INR B) by (apply lt_0_INR; lia). pose proof PI_RGT_0 as HP.
  assert (P2 : 0 < 2 / PI) by (apply Rdiv_lt_0_compat; lra).
  assert (G : forall d l d' l', 0 < d' <= d -> 0 < l <= l' -> 0 < prandtl B d' l' phi <= prandtl B d l phi).
  { intros d l d' l' Hd Hl. split; [apply prandtl_unit; auto; lra|]. rewrite !prandtl_edge by (apply Rgt_not_eq; lra). apply Rmult_le_compat_l; [lra|]. apply edge_rises; [|exact Hs]. split.
    - apply Rdiv_lt_0_compat; [apply Rmult_lt_0_compat; lra|lra].
    - unfold Rdiv. apply Rmult_le_compat; [left; apply Rmult_lt_0_compat; lra|left; apply Rinv_0_lt_compat; lra|apply Rmult_le_compat_l; lra|apply Rinv_le_contravar; lra]. }
  destruct (G (Rtip - r) r (Rtip' - r) r ltac:(lra) ltac:(lra)) as [A1 A2]. destruct (G (r - Rhub) Rhub (r - Rhub') Rhub' ltac:(lra) ltac:(lra)) as [B1 B2].
  pose proof (prandtl_unit B (Rtip - r) r phi HB ltac:(lra) ltac:(lra) Hs) as U1. pose proof (prandtl_unit B (r - Rhub) Rhub phi HB ltac:(lra) ltac:(lra) Hs) as U2. clear G.
  assert (M : forall on on' x y, (on = true -> on' = true) -> 0 < y <= x -> 0 < x < 1 -> 0 < (if on' : bool then y else 1) <= (if on : bool then x else 1) /\ (if on then x else 1) <= 1).
  { intros [|] [|] x y I Hy Hx; try (discriminate (I eq_refl)); lra. }
  destruct (M _ _ _ _ T (conj A1 A2) U1) as [X1 X2]. destruct (M _ _ _ _ H (conj B1 B2) U2) as [Y1 Y2]. unfold lossF. clear T H A1 A2 B1 B2 U1 U2 M.
  set (f1 := if tipLoss o then _ else _) in *. set (f2 := if tipLoss o' then _ else _) in *. set (g1 := if hubLoss o then _ else _) in *. set (g2 := if hubLoss o' then _ else _) in *. clearbody f1 f2 g1 g2.
  split; [split; [apply Rmult_lt_0_compat; lra|apply Rmult_le_compat; lra]|]. replace 1 with (1 * 1) by ring. apply Rmult_le_compat; lra.
Qed.

Lemma inside_closer B r Rhub Rtip Rhub' Rtip' phi : closer r Rhub Rtip Rhub' Rtip' -> inside B r Rhub' Rtip' phi -> inside B r Rhub Rtip phi.
Proof. intros ((C1 & C2) & (C3 & C4) & C5) (HB & H1 & H2 & H3). unfold inside. repeat split; auto; lra. Qed.

Lemma hk_pos F k : 0 < F <= 1 -> 0 <= k -> 1 <= hk F k.
Proof. intros HF Hk. destruct (Rle_lt_dec k (2 / 3)) as [A|A]; [rewrite hk_low by exact A; lra|]. destruct (hk_high F k ltac:(lra) A) as (d & D & -> & _). lra. Qed.

Section Raise.
Variables (o o' : bemopts) (B : nat) (r chord Rhub Rtip Rhub' Rtip' phi cl cd : R).
Hypotheses (ML : more_losses o o') (CL : closer r Rhub Rtip Rhub' Rtip') (IN : inside B r Rhub' Rtip' phi) (CH : 0 <= chord) (CN : 0 <= coef_n (useCd o) cl cd phi).
Hypotheses (G : clear_of_guard o B r chord Rhub Rtip phi cl cd) (G' : clear_of_guard o' B r chord Rhub' Rtip' phi cl cd).
Let F := lossF o B r Rhub Rtip phi. Let F' := lossF o' B r Rhub' Rtip' phi.
Let k := loading o B r chord Rhub Rtip phi cl cd. Let k' := loading o' B r chord Rhub' Rtip' phi cl cd.

Lemma axial_raise : 1 / (1 - axial_pos k F) <= 1 / (1 - axial_pos k' F') /\ axial_pos k F <= axial_pos k' F' /\ 0 <= axial_pos k F /\ axial_pos k' F' < 1.
Proof.
  pose proof IN as (HB & (H1 & H2) & H3 & H4). destruct (loss_lower o o' B r Rhub Rtip Rhub' Rtip' phi ML CL HB H4) as [L1 L2]. fold F F' in L1, L2.
  assert (Hs : 0 < sin phi) by (apply sin_gt_0; lra). pose proof (solidity_pos B chord r HB CH ltac:(lra)) as SP.
  set (y := solidity B chord r * coef_n (useCd o) cl cd phi / (4 * sin phi ^ 2)).
  assert (S2 : 0 < sin phi ^ 2) by (apply pow_lt; lra).
  assert (Y : 0 <= y) by (unfold y, Rdiv; apply Rmult_le_pos; [apply Rmult_le_pos; lra|left; apply Rinv_0_lt_compat; lra]).
  assert (K : k = y / F) by (unfold k, y, loading; fold F; field; lra). assert (K' : k' = y / F') by (unfold k', y, loading; fold F'; rewrite (proj1 ML); field; lra).
  assert (P : forall f, 0 < f -> 0 <= y / f) by (intros f Hf; unfold Rdiv; apply Rmult_le_pos; [lra|left; apply Rinv_0_lt_compat; lra]).
  pose proof (P F ltac:(lra)) as Q. pose proof (P F' ltac:(lra)) as Q'. rewrite <- K in Q. rewrite <- K' in Q'.
  assert (HF : 0 < F <= 1) by lra. assert (HF' : 0 < F' <= 1) by lra. assert (M1 : - 1 < k) by lra. assert (M2 : - 1 < k') by lra.
  pose proof (hk_axial F k HF M1 G) as E. pose proof (hk_axial F' k' HF' M2 G') as E'.
  pose proof (hk_pos F k HF Q) as A. pose proof (hk_pos F' k' HF' Q') as A'.
  pose proof (hk_mono F F' y y ltac:(lra) ltac:(lra)) as MM. rewrite <- K, <- K' in MM. rewrite E, E'.
  assert (V : forall a h, 1 / (1 - a) = h -> 1 <= h -> a = 1 - / h).
  { intros a h Ea Hh. assert (N : 1 - a <> 0) by (intros N; rewrite N in Ea; unfold Rdiv in Ea; rewrite Rinv_0 in Ea; lra). rewrite <- Ea. field. exact N. }
  rewrite (V _ _ E A), (V _ _ E' A'). assert (/ hk F' k' <= / hk F k) by (apply Rinv_le_contravar; lra). assert (/ hk F k <= / 1) by (apply Rinv_le_contravar; lra). rewrite Rinv_1 in *. assert (0 < / hk F' k') by (apply Rinv_0_lt_compat; lra). lra.
Qed.

Lemma tangential_raise : 0 < cos phi -> 0 <= coef_t (useCd o) cl cd phi -> 0 <= loading_t o B r chord Rhub Rtip phi cl cd <= loading_t o' B r chord Rhub' Rtip' phi cl cd.
Proof.
  intros Hc CT. pose proof IN as (HB & (H1 & H2) & H3 & H4). destruct (loss_lower o o' B r Rhub Rtip Rhub' Rtip' phi ML CL HB H4) as [L1 L2]. fold F F' in L1, L2.
  assert (Hs : 0 < sin phi) by (apply sin_gt_0; lra). pose proof (solidity_pos B chord r HB CH ltac:(lra)) as SP. unfold loading_t. fold F F'. rewrite (proj1 ML).
  assert (Z : 0 <= solidity B chord r * coef_t (useCd o) cl cd phi) by (apply Rmult_le_pos; lra). assert (SC : 0 < sin phi * cos phi) by (apply Rmult_lt_0_compat; lra).
  assert (D : 0 < 4 * F' * sin phi * cos phi <= 4 * F * sin phi * cos phi).
  { replace (4 * F' * sin phi * cos phi) with (F' * (4 * (sin phi * cos phi))) by ring. replace (4 * F * sin phi * cos phi) with (F * (4 * (sin phi * cos phi))) by ring. split; [apply Rmult_lt_0_compat; lra|apply Rmult_le_compat_r; lra]. }
  unfold Rdiv. split; [apply Rmult_le_pos; [exact Z|left; apply Rinv_0_lt_compat; lra]|]. apply Rmult_le_compat_l; [exact Z|]. apply Rinv_le_contravar; lra.
Qed.
End Raise.

Lemma raise_axial : forall o o' B (r chord Rhub Rtip Rhub' Rtip' phi cl cd Vx Vy fz a ap fz' a' ap' : R), more_losses o o' -> closer r Rhub Rtip Rhub' Rtip' -> inside B r Rhub' Rtip' phi ->
  0 <= chord -> 0 <= coef_n (useCd o) cl cd phi -> clear_of_guard o B r chord Rhub Rtip phi cl cd -> clear_of_guard o' B r chord Rhub' Rtip' phi cl cd ->
  inductionFactors o B r chord Rhub Rtip phi cl cd Vx Vy = (fz, a, ap) -> inductionFactors o' B r chord Rhub' Rtip' phi cl cd Vx Vy = (fz', a', ap') -> 0 <= a <= a' /\ a' < 1.
Proof.
  intros o o' B r chord Rhub Rtip Rhub' Rtip' phi cl cd Vx Vy fz a ap fz' a' ap' ML CL IN CH CN G G' E E'. rewrite ind_pos in E by (eapply inside_closer; eassumption). rewrite ind_pos in E' by exact IN.
  apply pair_equal_spec in E. destruct E as [E _]. apply pair_equal_spec in E. destruct E as [_ <-]. apply pair_equal_spec in E'. destruct E' as [E' _]. apply pair_equal_spec in E'. destruct E' as [_ <-].
  pose proof (axial_raise o o' B r chord Rhub Rtip Rhub' Rtip' phi cl cd ML CL IN CH CN G G'). lra.
Qed.

Lemma raise_rest : forall o o' B (r chord Rhub Rtip Rhub' Rtip' phi cl cd Vx Vy fz a ap fz' a' ap' : R), more_losses o o' -> closer r Rhub Rtip Rhub' Rtip' -> inside B r Rhub' Rtip' phi ->
  0 <= chord -> 0 <= coef_n (useCd o) cl cd phi -> clear_of_guard o B r chord Rhub Rtip phi cl cd -> clear_of_guard o' B r chord Rhub' Rtip' phi cl cd ->
  phi < PI / 2 -> 0 < Vx -> 0 < Vy -> 0 <= coef_t (useCd o) cl cd phi ->
  inductionFactors o B r chord Rhub Rtip phi cl cd Vx Vy = (fz, a, ap) -> inductionFactors o' B r chord Rhub' Rtip' phi cl cd Vx Vy = (fz', a', ap') ->
  fz <= fz' /\ (loading_t o' B r chord Rhub' Rtip' phi cl cd < 1 -> 0 <= ap <= ap').
Proof.
  intros o o' B r chord Rhub Rtip Rhub' Rtip' phi cl cd Vx Vy fz a ap fz' a' ap' ML CL IN CH CN G G' P HVx HVy CT E E'.
  pose proof IN as (_ & _ & _ & H4). assert (Hc : 0 < cos phi) by (apply cos_gt_0; lra). assert (Hs : 0 < sin phi) by (apply sin_gt_0; lra). pose proof (inside_closer _ _ _ _ _ _ _ CL IN) as IN0.
  destruct (axial_raise o o' B r chord Rhub Rtip Rhub' Rtip' phi cl cd ML CL IN CH CN G G') as [A _].
  pose proof (tangential_raise o o' B r chord Rhub Rtip Rhub' Rtip' phi cl cd ML CL IN CH Hc CT) as T.
  rewrite ind_pos in E by exact IN0. rewrite ind_pos in E' by exact IN. rewrite kp_spec in E by (exact IN0 || lra). rewrite kp_spec in E' by (exact IN || lra). rewrite (proj1 (proj2 ML)) in E'.
  apply pair_equal_spec in E. destruct E as [E <-]. apply pair_equal_spec in E. destruct E as [<- _]. apply pair_equal_spec in E'. destruct E' as [E' <-]. apply pair_equal_spec in E'. destruct E' as [<- _].
  set (k1 := loading_t o B r chord Rhub Rtip phi cl cd) in *. set (k2 := loading_t o' B r chord Rhub' Rtip' phi cl cd) in *.
  set (h1 := axial_pos (loading o B r chord Rhub Rtip phi cl cd) _) in *. set (h2 := axial_pos (loading o' B r chord Rhub' Rtip' phi cl cd) _) in *.
  assert (S : sin phi / (1 - h1) <= sin phi / (1 - h2)).
  { replace (sin phi / (1 - h1)) with (sin phi * (1 / (1 - h1))) by (unfold Rdiv; ring). replace (sin phi / (1 - h2)) with (sin phi * (1 / (1 - h2))) by (unfold Rdiv; ring). apply Rmult_le_compat_l; lra. }
  assert (C : 0 < cos phi / (Vy / Vx)) by (apply Rdiv_lt_0_compat; [lra|apply Rdiv_lt_0_compat; lra]). set (c := cos phi / (Vy / Vx)) in *. clearbody c h1 h2 k1 k2.
  destruct (wakerotation o).
  - split; [assert (c * (1 - k2) <= c * (1 - k1)) by (apply Rmult_le_compat_l; lra); lra|]. intros K.
    assert (V : forall x, x < 1 -> x / (1 - x) = / (1 - x) - 1) by (intros x X; field; lra). rewrite !V by lra. assert (/ (1 - k1) <= / (1 - k2)) by (apply Rinv_le_contravar; lra). assert (/ 1 <= / (1 - k1)) by (apply Rinv_le_contravar; lra). rewrite Rinv_1 in *. lra.
  - split; lra.
Qed.

(** ** Strict versions *)
Lemma edge_rises_strict c c' s : 0 < c < c' -> 0 < s -> edge c s < edge c' s.
Proof.
  intros Hc Hs. destruct (edge_rises c c' s ltac:(lra) Hs) as [L|E]; [exact L|exfalso]. destruct (edge_facts c s ltac:(lra) Hs) as [_ X]. destruct (edge_facts c' s ltac:(lra) Hs) as [_ Y].
  rewrite E, Y in X. assert (c / s < c' / s) by (unfold Rdiv; apply Rmult_lt_compat_r; [apply Rinv_0_lt_compat; lra|lra]). lra.
Qed.

Lemma prandtl_strict B d l d' l' phi : (1 <= B)%nat -> 0 < sin phi -> 0 < d' <= d -> 0 < l <= l' -> d' < d -> prandtl B d' l' phi < prandtl B d l phi.
Proof.
  intros HB Hs Hd Hl Hn. assert (HI : 0 < INR B) by (apply lt_0_INR; lia). pose proof PI_RGT_0 as HP. assert (P2 : 0 < 2 / PI) by (apply Rdiv_lt_0_compat; lra).
  rewrite !prandtl_edge by (apply Rgt_not_eq; lra). apply Rmult_lt_compat_l; [exact P2|]. apply edge_rises_strict; [|exact Hs]. split.
  - apply Rdiv_lt_0_compat; [apply Rmult_lt_0_compat; lra|lra].
  - unfold Rdiv. apply Rle_lt_trans with (INR B * d' * / (2 * l)).
    + apply Rmult_le_compat_l; [left; apply Rmult_lt_0_compat; lra|apply Rinv_le_contravar; lra].
    + apply Rmult_lt_compat_r; [apply Rinv_0_lt_compat; lra|apply Rmult_lt_compat_l; lra].
Qed.

Lemma loss_lower_strict o o' B r Rhub Rtip Rhub' Rtip' phi : more_losses o o' -> closer r Rhub Rtip Rhub' Rtip' -> loss_felt o o' Rhub Rtip Rhub' Rtip' -> (1 <= B)%nat -> 0 < phi < PI ->
  lossF o' B r Rhub' Rtip' phi < lossF o B r Rhub Rtip phi.
Proof.
  intros ML CL FE HB Hp. pose proof (proj1 (proj2 (proj2 ML))) as T. pose proof (proj2 (proj2 (proj2 ML))) as H. pose proof CL as ((C1 & C2) & (C3 & C4) & C5).
  assert (Hs : 0 < sin phi) by (apply sin_gt_0; lra).
  set (m := mkOpts (useCd o) false (tipLoss o) (wakerotation o)). set (m' := mkOpts (useCd o) false (tipLoss o') (wakerotation o)).
  set (n := mkOpts (useCd o) (hubLoss o) false (wakerotation o)). set (n' := mkOpts (useCd o) (hubLoss o') false (wakerotation o)).
  assert (M1 : more_losses m m') by (repeat split; auto; discriminate). assert (M2 : more_losses n n') by (repeat split; auto; discriminate).
  destruct (loss_lower m m' B r Rhub Rtip Rhub' Rtip' phi M1 CL HB Hp) as [X _]. destruct (loss_lower n n' B r Rhub Rtip Rhub' Rtip' phi M2 CL HB Hp) as [Y _].
  unfold lossF, m, m', n, n' in X, Y. cbn [tipLoss hubLoss] in X, Y. unfold lossF.
  pose proof (prandtl_unit B (Rtip' - r) r phi HB ltac:(lra) ltac:(lra) Hs) as U1. pose proof (prandtl_unit B (r - Rhub') Rhub' phi HB ltac:(lra) ltac:(lra) Hs) as U2.
  assert (S : (if tipLoss o' then prandtl B (Rtip' - r) r phi else 1) < (if tipLoss o then prandtl B (Rtip - r) r phi else 1) \/
              (if hubLoss o' then prandtl B (r - Rhub') Rhub' phi else 1) < (if hubLoss o then prandtl B (r - Rhub) Rhub phi else 1)).
  { destruct FE as [(E & D)|(E & D)]; rewrite E; [left; destruct (tipLoss o)|right; destruct (hubLoss o)]; try lra; (destruct D as [D|D]; [discriminate|]); apply prandtl_strict; auto; lra. }
  clear U1 U2 FE T H. set (f1 := if tipLoss o then _ else _) in *. set (f2 := if tipLoss o' then _ else _) in *. set (g1 := if hubLoss o then _ else _) in *. set (g2 := if hubLoss o' then _ else _) in *. clearbody f1 f2 g1 g2.
  destruct S as [S|S].
  - apply Rlt_le_trans with (f1 * g2); [apply Rmult_lt_compat_r; lra|apply Rmult_le_compat_l; lra].
  - apply Rlt_le_trans with (f2 * g1); [apply Rmult_lt_compat_l; lra|apply Rmult_le_compat_r; lra].
Qed.

Lemma hk_strict F F' y : 0 < F' < F -> 0 < y -> hk F (y / F) < hk F' (y / F').
Proof.
  intros HF Hy. assert (K : y / F < y / F') by (unfold Rdiv; apply Rmult_lt_compat_l; [lra|apply Rinv_lt_contravar; [apply Rmult_lt_0_compat; lra|lra]]).
  destruct (Rle_lt_dec (y / F) (2 / 3)) as [A|A], (Rle_lt_dec (y / F') (2 / 3)) as [B|B].
  - rewrite !hk_low by assumption. lra.
  - rewrite hk_low by assumption. destruct (hk_high F' _ ltac:(lra) B) as (d & D & -> & _). lra.
  - lra.
  - destruct (hk_high F _ ltac:(lra) A) as (d & D & -> & E). destruct (hk_high F' _ ltac:(lra) B) as (d' & D' & -> & E').
    replace (2 * F * (y / F)) with (2 * y) in E by (field; lra). replace (2 * F' * (y / F')) with (2 * y) in E' by (field; lra).
    apply Rplus_lt_compat_r. apply Rnot_le_lt. intros N. assert (d' ^ 2 <= d ^ 2) by (apply pow_incr; lra).
    assert (F' * (d' + 2 / 3) < F * (d + 2 / 3)) by (apply Rlt_le_trans with (F * (d' + 2 / 3)); [apply Rmult_lt_compat_r; lra|apply Rmult_le_compat_l; lra]). lra.
Qed.

Lemma raise_axial_strict : forall o o' B (r chord Rhub Rtip Rhub' Rtip' phi cl cd Vx Vy fz a ap fz' a' ap' : R), more_losses o o' -> closer r Rhub Rtip Rhub' Rtip' -> loss_felt o o' Rhub Rtip Rhub' Rtip' ->
  inside B r Rhub' Rtip' phi -> 0 < chord -> 0 < coef_n (useCd o) cl cd phi -> clear_of_guard o B r chord Rhub Rtip phi cl cd -> clear_of_guard o' B r chord Rhub' Rtip' phi cl cd ->
  inductionFactors o B r chord Rhub Rtip phi cl cd Vx Vy = (fz, a, ap) -> inductionFactors o' B r chord Rhub' Rtip' phi cl cd Vx Vy = (fz', a', ap') -> 0 < a < a' /\ a' < 1.
Proof.
  intros o o' B r chord Rhub Rtip Rhub' Rtip' phi cl cd Vx Vy fz a ap fz' a' ap' ML CL FE IN CH CN G G' E E'. pose proof IN as (HB & (H1 & H2) & H3 & H4).
  rewrite ind_pos in E by (eapply inside_closer; eassumption). rewrite ind_pos in E' by exact IN.
  apply pair_equal_spec in E. destruct E as [E _]. apply pair_equal_spec in E. destruct E as [_ <-]. apply pair_equal_spec in E'. destruct E' as [E' _]. apply pair_equal_spec in E'. destruct E' as [_ <-].
  destruct (loss_lower o o' B r Rhub Rtip Rhub' Rtip' phi ML CL HB H4) as [L1 L2]. pose proof (loss_lower_strict o o' B r Rhub Rtip Rhub' Rtip' phi ML CL FE HB H4) as L3.
  set (F := lossF o B r Rhub Rtip phi) in *. set (F' := lossF o' B r Rhub' Rtip' phi) in *. set (k := loading o B r chord Rhub Rtip phi cl cd). set (k' := loading o' B r chord Rhub' Rtip' phi cl cd).
  assert (Hs : 0 < sin phi) by (apply sin_gt_0; lra). assert (S2 : 0 < sin phi ^ 2) by (apply pow_lt; lra). pose proof PI_RGT_0 as HP. assert (HI : 0 < INR B) by (apply lt_0_INR; lia).
  assert (SP : 0 < solidity B chord r) by (unfold solidity; apply Rdiv_lt_0_compat; apply Rmult_lt_0_compat; lra).
  set (y := solidity B chord r * coef_n (useCd o) cl cd phi / (4 * sin phi ^ 2)).
  assert (Y : 0 < y) by (unfold y; apply Rdiv_lt_0_compat; [apply Rmult_lt_0_compat; assumption|lra]).
  assert (K : k = y / F) by (unfold k, y, loading; fold F; field; lra). assert (K' : k' = y / F') by (unfold k', y, loading; fold F'; rewrite (proj1 ML); field; lra).
  assert (Q : 0 < k) by (rewrite K; apply Rdiv_lt_0_compat; lra). assert (Q' : 0 < k') by (rewrite K'; apply Rdiv_lt_0_compat; lra).
  assert (HF : 0 < F <= 1) by lra. assert (HF' : 0 < F' <= 1) by lra.
  pose proof (hk_axial F k HF ltac:(lra) G) as X. pose proof (hk_axial F' k' HF' ltac:(lra) G') as X'.
  assert (A : 1 < hk F k). { destruct (Rle_lt_dec k (2 / 3)) as [Z|Z]; [rewrite hk_low by exact Z; lra|]. destruct (hk_high F k ltac:(lra) Z) as (d & D & -> & _). lra. }
  pose proof (hk_strict F F' y ltac:(lra) Y) as MM. rewrite <- K, <- K' in MM.
  assert (V : forall a h, 1 / (1 - a) = h -> 1 < h -> a = 1 - / h).
  { intros a h Ea Hh. assert (N : 1 - a <> 0) by (intros N; rewrite N in Ea; unfold Rdiv in Ea; rewrite Rinv_0 in Ea; lra). rewrite <- Ea. field. exact N. }
  rewrite (V _ _ X A), (V _ _ X' ltac:(lra)). assert (/ hk F' k' < / hk F k) by (apply Rinv_lt_contravar; [apply Rmult_lt_0_compat; lra|lra]).
  assert (/ hk F k < / 1) by (apply Rinv_lt_contravar; lra). rewrite Rinv_1 in *. assert (0 < / hk F' k') by (apply Rinv_0_lt_compat; lra). lra.
Qed.
