(** The only zero of the residual moves differentiably (C37, C64). *)
From Coquelicot Require Import Coquelicot.
From Coq Require Import Reals Bool Arith List Lia Lra Ranalysis5.
From Verif Require Import Prelim Num Bem IndSpec DiffSpec BemDiff DeriveLib Blade BladeDiff BladeDiffSpec StationDvProofs BladeDvProofs EvalDvProofs TrackSpec.
Open Scope R_scope.

Lemma sign_change_zero (f : R -> R) a b : a <> b -> (forall x, Rmin a b <= x <= Rmax a b -> continuous f x) -> f a * f b < 0 ->
  exists z, Rmin a b <= z <= Rmax a b /\ f z = 0.
Proof.
  assert (K : forall f a b, a < b -> (forall x, a <= x <= b -> continuous f x) -> f a < 0 -> 0 < f b -> exists z, a <= z <= b /\ f z = 0).
  { intros g p q H C H1 H2. destruct (IVT_interv g p q) as (z & Hz & E); try assumption; [|exists z; auto].
    intros x Hx. apply continuity_pt_filterlim. apply C. exact Hx. }
  assert (K2 : forall f a b, a < b -> (forall x, a <= x <= b -> continuous f x) -> f a * f b < 0 -> exists z, a <= z <= b /\ f z = 0).
  { intros g p q H C P. destruct (Rlt_dec (g p) 0) as [N|N].
    - apply K; try assumption. nra.
    - destruct (K (fun x => - g x) p q H) as (z & Hz & E).
      + intros x Hx. apply (continuous_opp g). apply C. exact Hx.
      + destruct (Req_dec (g p) 0); nra.
      + nra.
      + exists z. split; [exact Hz|lra]. }
  intros Hne C P. destruct (Rlt_dec a b) as [L|L].
  - rewrite (Rmin_left a b), (Rmax_right a b) in * by lra. apply K2; assumption.
  - rewrite (Rmin_right a b), (Rmax_left a b) in * by lra. apply K2; try assumption; [lra|nra].
Qed.

(** Between the two lines of slopes q - e and q + e the residual changes sign, so its only zero is there. *)
Lemma zero_moves (err : R -> R -> R) (phi : R -> R) (t lo hi rt rp : R) :
  (forall c d, c t = phi t -> is_derive c t d -> is_derive (fun s => err s (c s)) t (rt + rp * d)) -> rp <> 0 ->
  locally t (fun s => only_zero (err s) lo hi (phi s)) -> is_derive phi t (- rt / rp).
Proof.
  intros G Hp L. pose proof (locally_singleton _ _ L) as (I0 & Z0 & _).
  apply is_derive_Reals. intros eps He. set (q := - rt / rp). set (e := eps / 2).
  assert (He2 : 0 < e) by (unfold e; lra).
  set (line := fun k s => phi t + k * (s - t)).
  assert (GL : forall k, derivable_pt_lim (fun s => err s (line k s)) t (rt + rp * k)).
  { intros k. apply is_derive_Reals. apply G; [unfold line; ring|]. unfold line. auto_derive; [exact I|ring]. }
  assert (RP : 0 < Rabs rp) by (apply Rabs_pos_lt; exact Hp).
  assert (T : 0 < e * Rabs rp / 2) by (apply Rdiv_lt_0_compat; [apply Rmult_lt_0_compat; assumption|lra]).
  destruct (GL (q + e) _ T) as (d1 & D1). destruct (GL (q - e) _ T) as (d2 & D2).
  destruct L as (d3 & D3).
  set (w := Rmin (phi t - lo) (hi - phi t)). assert (Hw : 0 < w) by (unfold w; apply Rmin_glb_lt; lra).
  set (M := Rabs q + e + 1). assert (HM : 0 < M) by (unfold M; pose proof (Rabs_pos q); lra).
  assert (H4 : 0 < w / M) by (apply Rdiv_lt_0_compat; assumption).
  assert (Hd : 0 < Rmin (Rmin d1 d2) (Rmin d3 (w / M))).
  { repeat apply Rmin_glb_lt; try apply cond_pos. exact H4. }
  exists (mkposreal _ Hd). cbn [pos]. intros h Hh Hs.
  assert (S1 : Rabs h < d1) by (eapply Rlt_le_trans; [exact Hs|]; eapply Rle_trans; [apply Rmin_l|apply Rmin_l]).
  assert (S2 : Rabs h < d2) by (eapply Rlt_le_trans; [exact Hs|]; eapply Rle_trans; [apply Rmin_l|apply Rmin_r]).
  assert (S3 : Rabs h < d3) by (eapply Rlt_le_trans; [exact Hs|]; eapply Rle_trans; [apply Rmin_r|apply Rmin_l]).
  assert (S4 : Rabs h < w / M) by (eapply Rlt_le_trans; [exact Hs|]; eapply Rle_trans; [apply Rmin_r|apply Rmin_r]).
  specialize (D1 h Hh S1). specialize (D2 h Hh S2).
  assert (D3' : only_zero (err (t + h)) lo hi (phi (t + h))).
  { apply D3. unfold ball, UniformSpace.ball. cbn. unfold AbsRing_ball, abs, minus, plus, opp. cbn. replace (t + h + - t) with h by ring. exact S3. }
  destruct D3' as (I1 & Z1 & U1 & C1).
  assert (L0 : forall k, line k t = phi t) by (intros; unfold line; ring).
  rewrite !L0, Z0, !Rminus_0_r in D1, D2.
  set (g1 := err (t + h) (line (q + e) (t + h))) in *. set (g2 := err (t + h) (line (q - e) (t + h))) in *.
  replace (rt + rp * (q + e)) with (rp * e) in D1 by (unfold q; field; exact Hp).
  replace (rt + rp * (q - e)) with (- (rp * e)) in D2 by (unfold q; field; exact Hp).
  (* opposite signs *)
  assert (P : g1 * g2 < 0).
  { assert (Q : g1 / h * (g2 / h) < 0).
    { set (u := g1 / h) in *. set (v := g2 / h) in *. apply Rabs_lt_between in D1, D2.
      destruct (Rcase_abs rp) as [N|N].
      - rewrite Rabs_left in D1, D2 by assumption. assert (u < 0) by nra. assert (0 < v) by nra. nra.
      - rewrite Rabs_right in D1, D2 by assumption. assert (0 < rp) by lra. assert (0 < u) by nra. assert (v < 0) by nra. nra. }
    replace (g1 * g2) with (g1 / h * (g2 / h) * (h * h)) by (field; exact Hh). assert (0 < h * h) by nra. nra. }
  (* the lines are inside the interval *)
  assert (B : forall k, Rabs k <= Rabs q + e -> lo < line k (t + h) < hi).
  { intros k Hk. assert (Rabs (k * h) < w).
    { rewrite Rabs_mult. apply Rle_lt_trans with (M * Rabs h); [apply Rmult_le_compat_r; [apply Rabs_pos|unfold M; lra]|].
      replace w with (M * (w / M)) by (field; lra). apply Rmult_lt_compat_l; assumption. }
    apply Rabs_lt_between in H. unfold line. replace (t + h - t) with h by ring.
    assert (w <= phi t - lo) by apply Rmin_l. assert (w <= hi - phi t) by apply Rmin_r. lra. }
  assert (B1 : lo < line (q + e) (t + h) < hi).
  { apply B. eapply Rle_trans; [apply Rabs_triang|]. rewrite (Rabs_right e) by lra. lra. }
  assert (B2 : lo < line (q - e) (t + h) < hi).
  { apply B. eapply Rle_trans; [apply Rabs_triang|]. rewrite Rabs_Ropp, (Rabs_right e) by lra. lra. }
  destruct (sign_change_zero (err (t + h)) (line (q + e) (t + h)) (line (q - e) (t + h))) as (z & Hz & Ez).
  - unfold line. replace (t + h - t) with h by ring. intros E. assert (e * h = 0) by lra. nra.
  - intros x Hx. apply C1. unfold Rmin, Rmax in Hx. destruct (Rle_dec _ _) in Hx; lra.
  - exact P.
  - assert (lo < z < hi) by (unfold Rmin, Rmax in Hz; destruct (Rle_dec _ _) in Hz; lra).
    assert (z = phi (t + h)) by (apply U1; assumption). subst z.
    assert (Y : Rabs (phi (t + h) - phi t - q * h) <= e * Rabs h).
    { unfold line in Hz. replace (t + h - t) with h in Hz by ring.
      unfold Rmin, Rmax in Hz. destruct (Rle_dec _ _) in Hz; apply Rabs_le; unfold Rabs; destruct (Rcase_abs h); nra. }
    replace ((phi (t + h) - phi t) / h - q) with ((phi (t + h) - phi t - q * h) / h) by (field; exact Hh).
    unfold Rdiv. rewrite Rabs_mult, Rabs_inv. apply Rle_lt_trans with (e * Rabs h * / Rabs h).
    + apply Rmult_le_compat_r; [left; apply Rinv_0_lt_compat, Rabs_pos_lt; exact Hh|exact Y].
    + rewrite Rmult_assoc, Rinv_r by (apply Rabs_no_R0; exact Hh). unfold e. lra.
Qed.

(** The same for a residual with a gradient, as a function of the angle and eight other variables. *)
Lemma angle_moves (Res : (nat -> R) -> R) (x gR : nat -> R) (Y : nat -> R -> R) (phi : R -> R) (t lo hi : R) (d : nat -> R) :
  gradient 9 Res x gR -> gR 0%nat <> 0 -> x 0%nat = phi t -> (forall k, (k < 8)%nat -> Y k t = x (S k)) -> curves_derive 8 Y t d ->
  locally t (fun s => only_zero (fun p => Res (with_phi p (at_time Y s))) lo hi (phi s)) ->
  is_derive phi t (- inner 8 (fun k => gR (S k)) d / gR 0%nat).
Proof.
  intros G H0 Ex EY HY L. apply (zero_moves (fun s p => Res (with_phi p (at_time Y s))) phi t lo hi); try assumption.
  intros c c' Ec Hc. pose proof (G (fun k s => with_phi (c s) (at_time Y s) k) t (with_phi c' d)) as H.
  replace (inner 8 (fun k => gR (S k)) d + gR 0%nat * c') with (inner 9 gR (with_phi c' d)).
  - apply H.
    + intros [|k] Hk; [cbn; congruence|]. cbn [with_phi]. apply EY. lia.
    + intros [|k] Hk; [exact Hc|]. cbn [with_phi]. apply HY. lia.
  - change 9%nat with (1 + 8)%nat. rewrite (inner_split 1 8). cbn [inner with_phi Nat.add]. ring.
Qed.

Lemma tracking_rotating npi bq fx D t v i : (2 <= f_n fx)%nat -> design_derive (f_n fx) D t v -> wind_ok fx D t -> (i < f_n fx)%nat ->
  tracking_ok npi bq fx D t i -> rotating_ok npi bq fx D t i.
Proof.
  intros Hn HD Hw Hi (HO & Hit & Hf & phi & lo & hi & Hloc & Hsimple & Hreg & Hsm & Hwb).
  refine (conj HO (conj Hit (conj Hf _))). exists phi.
  assert (E : ex_derive phi t); [|refine (conj E (conj _ (conj Hsimple (conj Hreg (conj Hsm Hwb)))));
    generalize Hloc; apply filter_imp; intros s (A & _ & B & _); auto].
  destruct (wind_rate fx D t v Hn HD Hw i Hi) as (WX & WY).
  set (x := xvec fx (D t) i (phi t)) in *.
  eexists. eapply (angle_moves (station_res (rotor_d fx (D t)) (f_af fx i)) x
    (fst (fst (residualDerivatives (rotor_at (rotor_d fx (D t)) x) (x 0%nat) (sect_at (f_af fx i) x) (f_afd fx i))))
    (fun k s => nth k (cons (x_chord (D s) i) (cons (radians (x_theta (D s) i)) (cons (fst (wind_d fx (D s)) i)
      (cons (snd (wind_d fx (D s)) i) (cons (x_r (D s) i) (cons (x_Rhub (D s)) (cons (x_Rtip (D s)) (cons (radians (x_pitch (D s))) nil)))))))) 0) phi t lo hi).
  - apply res_gradient. exact Hreg.
  - intros E. apply Hsimple. change (errf (rotor_d fx (D t)) (sect_d fx (D t) i) 0) with (errf (rotor_at (rotor_d fx (D t)) x) (sect_at (f_af fx i) x) 0).
    change (phi t) with (x 0%nat). rewrite (Derive_err fx i Hi (rotor_d fx (D t)) (f_af fx i) (f_afd fx i) x Hreg). exact E.
  - reflexivity.
  - reflexivity.
  - eapply svel_derive; eassumption.
  - generalize Hloc. apply filter_imp. intros s (_ & Z). exact Z.
Qed.

Lemma total_tracks (N Res : (nat -> R) -> R) (x gN gR : nat -> R) (Y : nat -> R -> R) (phi : R -> R) (t lo hi : R) (d : nat -> R) :
  gradient 9 N x gN -> gradient 9 Res x gR -> gR 0%nat <> 0 -> x 0%nat = phi t -> (forall k, (k < 8)%nat -> Y k t = x (S k)) ->
  curves_derive 8 Y t d -> locally t (fun s => only_zero (fun p => Res (with_phi p (at_time Y s))) lo hi (phi s)) ->
  is_derive (fun s => N (with_phi (phi s) (at_time Y s))) t (inner 8 (total gN gR) d).
Proof.
  intros GN G H0 Ex EY HY L. pose proof (angle_moves Res x gR Y phi t lo hi d G H0 Ex EY HY L) as A.
  apply (total_exact N Res x gN gR (fun k s => with_phi (phi s) (at_time Y s) k) t (with_phi (- inner 8 (fun k => gR (S k)) d / gR 0%nat) d)); try assumption.
  - intros [|k] Hk; [cbn; congruence|]. cbn [with_phi]. apply EY. lia.
  - intros [|k] Hk; [exact A|]. cbn [with_phi]. apply HY. lia.
  - generalize L. apply filter_imp. intros s (_ & Z & _). exact Z.
Qed.

Lemma track_sectors npi bq fx D t v : (2 <= f_n fx)%nat -> design_derive (f_n fx) D t v -> sectors_track npi bq fx D t v ->
  sectors_ok npi bq fx D t v.
Proof.
  intros Hn HD (A & B & C). refine (conj A (conj B _)). intros az Haz. destruct (C az Haz) as (W & S1). refine (conj W _).
  intros i Hi. destruct (S1 i Hi) as (T & L). refine (conj _ L). left.
  eapply tracking_rotating; try eassumption. unfold sector_design. apply set_azimuth_derive. exact HD.
Qed.
