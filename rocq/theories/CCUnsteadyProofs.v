(** Lemmas about CCAirfoil.eval_unsteady. *)
From Coq Require Import Reals List Bool Lra Lia.
From Verif Require Import Prelim Num FlProofs Interp Polar PolarExt AeroDyn UnsteadyProofs StationProofs CCAirfoil CCAirfoilSpec CCAirfoilProofs.
Import ListNotations.
Open Scope R_scope.

Lemma map2_length {A B C} (f : A -> B -> C) l m : length l = length m -> length (map2 f l m) = length l.
Proof. intros H. unfold map2. rewrite map_length, combine_length. lia. Qed.
Lemma nth_map2 {A B C} (f : A -> B -> C) l m i a b c : (i < length l)%nat -> length l = length m ->
  nth i (map2 f l m) c = f (nth i l a) (nth i m b).
Proof.
  intros H L. unfold map2. rewrite (nth_indep _ c (f (fst (a, b)) (snd (a, b)))) by (rewrite map_length, combine_length; lia).
  rewrite (map_nth (fun p => f (fst p) (snd p))), combine_nth by exact L. reflexivity.
Qed.
Definition cn_of (alpha cl cd : list R) : list R :=
  map2 Rplus (map2 (fun c a => c * cos a) cl (map radians alpha)) (map2 (fun c a => c * sin a) cd (map radians alpha)).
Lemma cn_length alpha cl cd : length cl = length alpha -> length cd = length alpha -> length (cn_of alpha cl cd) = length alpha.
Proof. intros A B. unfold cn_of. rewrite !map2_length; rewrite ?map2_length; rewrite ?map_length; congruence. Qed.
Lemma nth_radians l i : nth i (map radians l) 0 = nth i l 0 * PI / 180.
Proof. replace 0 with (radians 0) at 1 by (unfold radians; ring). rewrite map_nth. apply rad_scan. Qed.
Lemma cn_nth alpha cl cd i : length cl = length alpha -> length cd = length alpha -> (i < length alpha)%nat ->
  nth i (cn_of alpha cl cd) 0 = normal alpha cl cd i.
Proof.
  intros A B H. unfold cn_of.
  rewrite (nth_map2 _ _ _ i 0 0); [|rewrite map2_length; rewrite ?map_length; lia|rewrite !map2_length; rewrite ?map_length; lia].
  rewrite !(nth_map2 _ _ _ i 0 0) by (rewrite ?map_length; lia). rewrite !nth_radians. reflexivity.
Qed.

Section Run.
Variable raw : R -> list R -> list R -> R.
Variables alpha cl cd cm : list R.
Hypothesis T : table_ok alpha cl cd cm.
Let n := length alpha.

(** The part after the zero-lift point when the moment varies. *)
Definition tail (a0 d0 m0 : R) (l i0 : nat) : res unsteady :=
    do a_0 <- at_ alpha i0;
    do idx_high <- nearest_to alpha (a_0 + 35);
    do idx_high <- last_local_min cm l idx_high;
    do idx_Cn1 <- find_breakpoint alpha cm i0 idx_high 1;
    do Cn1 <- at_ (cn_of alpha cl cd) idx_Cn1;
    do a_1 <- at_ alpha idx_Cn1;
    do idx_low <- nearest_to alpha ((a_0 + a_1) / 2 - 30);
    do idx_high <- last_local_min cm idx_low idx_high;
    do idx_Cn2 <- find_breakpoint alpha cm idx_low i0 0;
    do Cn2 <- at_ (cn_of alpha cl cd) idx_Cn2;
    do slopes <- gradient2 (slice (cn_of alpha cl cd) i0 idx_Cn1) (slice (map radians alpha) i0 idx_Cn1);
    do C_nalpha <- amax slopes;
    do idx_low <- nearest_to alpha 0;
    do idx_alpha1 <- find_breakpoint alpha cd idx_low idx_Cn1 (-1);
    do alpha1 <- at_ alpha idx_alpha1;
    Ok (mkUnsteady a0 d0 m0 Cn1 Cn2 C_nalpha alpha1 (-1 * alpha1) alpha cl cd cm).

Lemma n2 : (2 <= n)%nat. Proof. apply T. Qed.
Lemma alpha_ne : alpha <> [].
Proof. intros E. assert (H := n2). unfold n in H. rewrite E in H. cbn in H. lia. Qed.

Lemma prefix : exists l h, closest alpha (-30) l /\ closest alpha 30 h /\
  ((~ constant cl /\ (h <= l)%nat /\ eval_unsteady raw alpha cl cd cm = Raise ValueError) \/
   (exists a0 d0 m0 i0, zero_lift raw alpha cl cd cm a0 d0 m0 /\ closest alpha a0 i0 /\
     (changes (1 / 10000000000) cm -> eval_unsteady raw alpha cl cd cm = tail a0 d0 m0 l i0) /\
     (~ changes (1 / 10000000000) cm ->
        eval_unsteady raw alpha cl cd cm = Ok (mkUnsteady a0 d0 m0 0 0 0 0 (-1 * 0) alpha cl cd cm)))).
Proof.
  destruct T as (H2 & I & Lcl & Lcd & Lcm).
  destruct (nearest_ok alpha (-30) alpha_ne) as (l & El & Cl). destruct (nearest_ok alpha 30 alpha_ne) as (h & Eh & Ch).
  exists l, h. split; [exact Cl|]. split; [exact Ch|].
  unfold eval_unsteady. rewrite Lcl, Lcd, Lcm, Nat.eqb_refl. cbn [andb negb]. cbv zeta. rewrite El, Eh. cbn [bind].
  destruct (varies_spec 0 cl ltac:(lia)) as (b & Eb & Hb). rewrite Eb. cbn [bind]. rewrite changes_constant in Hb by lia.
  destruct (varies_spec (1 / 10000000000) cm ltac:(lia)) as (c & Ec & Hc).
  destruct b.
  - assert (NC : ~ constant cl) by (apply Hb; reflexivity).
    destruct (Nat.le_gt_cases h l) as [L|L].
    + left. split; [exact NC|]. split; [exact L|].
      replace (slice cl l h) with (@nil R); [reflexivity|]. symmetry. apply length_zero_iff_nil. rewrite slice_length; [lia|]. destruct Ch. lia.
    + right. assert (NE : exists x xs, slice cl l h = x :: xs).
      { destruct (slice cl l h) eqn:E; [|eauto]. apply (f_equal (@length R)) in E. rewrite slice_length in E by (destruct Ch; lia). cbn in E. lia. }
      destruct NE as (x & xs & NE).
      assert (EI : forall fp, interp0 raw (slice cl l h) fp = Ok (raw 0 (slice cl l h) fp)) by (intros; unfold interp0; rewrite NE; reflexivity).
      rewrite !EI. cbn [bind fst snd].
      destruct (nearest_ok alpha (raw 0 (slice cl l h) (slice alpha l h)) alpha_ne) as (i0 & E0 & C0).
      do 3 eexists. exists i0. split; [|split; [exact C0|]].
      * right. split; [exact NC|]. exists l, h. split; [exact Cl|]. split; [exact Ch|]. split; [exact L|].
        split; [reflexivity|]. split; reflexivity.
      * rewrite E0. cbn [bind]. rewrite Ec. cbn [bind]. split; intros C.
        -- replace c with true by (symmetry; apply Hc, C). reflexivity.
        -- replace c with false by (symmetry; destruct c; [exfalso; apply C, Hc; reflexivity|reflexivity]).
           destruct (nearest_ok alpha 0 alpha_ne) as (z & Ez & _). rewrite Ez. reflexivity.
  - right. assert (K : constant cl) by (destruct (Classical_Prop.classic (constant cl)) as [K|K]; [exact K|apply Hb in K; discriminate]).
    destruct (nearest_ok alpha 0 alpha_ne) as (z & Ez & Cz). rewrite Ez. cbn [bind]. rewrite at_ok by (destruct Cz; lia). cbn [bind fst snd].
    rewrite Ez. cbn [bind]. rewrite Ec. cbn [bind].
    exists 0, (nth z cd 0), 0, z. split; [left; repeat split; [exact K|exists z; auto]|]. split; [exact Cz|]. split; intros C.
    + replace c with true by (symmetry; apply Hc, C). unfold tail. rewrite Ez. reflexivity.
    + replace c with false by (symmetry; destruct c; [exfalso; apply C, Hc; reflexivity|reflexivity]). reflexivity.
Qed.

Lemma breaks_ext d e lo hi k : (forall i, d i = e i) -> breaks d lo hi k -> breaks e lo hi k.
Proof.
  intros E [(A & B & C & D)|(A & B)]; [left|right].
  - split; [exact A|]. rewrite <- E. split; [exact B|]. split; intros j Hj; rewrite <- ?E; auto.
  - split; [exact A|]. intros j Hj. rewrite <- E. auto.
Qed.
Lemma dev_one y f : deviation 1 y f = y - f.
Proof. unfold deviation. replace (reqb 1 0) with false by (symmetry; apply reqb_false; lra). ring. Qed.
Lemma dev_zero y f : deviation 0 y f = Rabs (y - f).
Proof. unfold deviation. replace (reqb 0 0) with true by (symmetry; apply reqb_true; lra). reflexivity. Qed.
Lemma dev_minus y f : deviation (-1) y f = - (y - f).
Proof. unfold deviation. replace (reqb (-1) 0) with false by (symmetry; apply reqb_false; lra). ring. Qed.

(** Slopes. *)
Lemma slopes_spec i0 i1 : (i0 + 2 <= i1)%nat -> (i1 <= n)%nat ->
  exists s m, gradient2 (slice (cn_of alpha cl cd) i0 i1) (slice (map radians alpha) i0 i1) = Ok s /\ amax s = Ok m /\
    (exists j, (i0 <= j < i1)%nat /\ m = row_slope alpha cl cd i0 i1 j) /\
    (forall j, (i0 <= j < i1)%nat -> row_slope alpha cl cd i0 i1 j <= m).
Proof.
  destruct T as (H2 & I & Lcl & Lcd & Lcm). fold n in I. intros H01 H1.
  assert (Lc := cn_length alpha cl cd Lcl Lcd). fold n in Lc.
  unfold gradient2. rewrite slice_length by lia.
  replace (Nat.ltb (i1 - i0) 2) with false by (symmetry; apply Nat.ltb_ge; lia).
  set (g := fun i : nat => if Nat.eqb i 0 then _ else _).
  assert (G : forall j, (j < i1 - i0)%nat -> g j = row_slope alpha cl cd i0 i1 (i0 + j)).
  { intros j Hj. unfold g, row_slope.
    assert (NC : forall k, (i0 + k < i1)%nat -> nth k (slice (cn_of alpha cl cd) i0 i1) 0 = normal alpha cl cd (i0 + k)).
    { intros k Hk. rewrite nth_slice by exact Hk. apply cn_nth; auto. fold n. lia. }
    assert (NA : forall k, (i0 + k < i1)%nat -> nth k (slice (map radians alpha) i0 i1) 0 = nth (i0 + k) alpha 0 * PI / 180).
    { intros k Hk. rewrite nth_slice by exact Hk. apply nth_radians. }
    destruct (Nat.eqb j 0) eqn:E0.
    - apply Nat.eqb_eq in E0. subst j. rewrite Nat.add_0_r, Nat.eqb_refl. rewrite !NC, !NA by lia. unfold secant. rewrite Nat.add_0_r.
      f_equal. field.
    - apply Nat.eqb_neq in E0. replace (Nat.eqb (i0 + j) i0) with false by (symmetry; apply Nat.eqb_neq; lia).
      destruct (Nat.eqb j (i1 - i0 - 1)) eqn:E1.
      + apply Nat.eqb_eq in E1. replace (Nat.eqb (i0 + j) (i1 - 1)) with true by (symmetry; apply Nat.eqb_eq; lia).
        rewrite !NC, !NA by lia. unfold secant. replace (i1 - 2 + 1)%nat with (i0 + j)%nat by lia.
        replace (i1 - 2)%nat with (i0 + (j - 1))%nat by lia. f_equal. field.
      + apply Nat.eqb_neq in E1. replace (Nat.eqb (i0 + j) (i1 - 1)) with false by (symmetry; apply Nat.eqb_neq; lia).
        cbv zeta. rewrite !NC, !NA by lia. unfold secant.
        replace (i0 + j - 1 + 1)%nat with (i0 + j)%nat by lia. replace (i0 + (j - 1))%nat with (i0 + j - 1)%nat by lia.
        replace (i0 + (j + 1))%nat with (i0 + j + 1)%nat by lia.
        assert (A1 : nth (i0 + j - 1) alpha 0 < nth (i0 + j) alpha 0) by (apply I; lia).
        assert (A2 : nth (i0 + j) alpha 0 < nth (i0 + j + 1) alpha 0) by (apply I; lia).
        set (u := nth (i0 + j - 1) alpha 0) in *. set (v := nth (i0 + j) alpha 0) in *. set (w := nth (i0 + j + 1) alpha 0) in *.
        assert (P := PI_RGT_0).
        replace (w * PI / 180 - v * PI / 180) with ((w - v) * (PI / 180)) by field.
        replace (v * PI / 180 - u * PI / 180) with ((v - u) * (PI / 180)) by field.
        replace ((v - u) * PI / 180) with ((v - u) * (PI / 180)) by field.
        replace ((w - v) * PI / 180) with ((w - v) * (PI / 180)) by field.
        set (p := PI / 180). assert (Pp : 0 < p) by (unfold p; lra). clearbody p u v w.
        set (s := w - v). set (t := v - u). assert (Hs : 0 < s) by (unfold s; lra). assert (Ht : 0 < t) by (unfold t; lra). clearbody s t.
        replace (t * p + s * p) with ((t + s) * p) by ring. field. repeat split; lra. }
  destruct (amax_ok (map g (seq 0 (i1 - i0)))) as (m & Em).
  { intros E. apply (f_equal (@length R)) in E. rewrite map_length, seq_length in E. cbn in E. lia. }
  eexists. exists m. split; [reflexivity|]. split; [exact Em|]. apply amax_spec in Em. destruct Em as (J & F). split.
  - apply in_map_iff in J. destruct J as (j & <- & Hj). apply in_seq in Hj. exists (i0 + j)%nat. split; [lia|]. apply G. lia.
  - intros j Hj. assert (K : In (g (j - i0)%nat) (map g (seq 0 (i1 - i0)))) by (apply in_map, in_seq; lia).
    apply F in K. rewrite G in K by lia. replace (i0 + (j - i0))%nat with j in K by lia. exact K.
Qed.
Lemma slopes_few i0 i1 : (i1 < i0 + 2)%nat -> (i1 <= n)%nat ->
  gradient2 (slice (cn_of alpha cl cd) i0 i1) (slice (map radians alpha) i0 i1) = Raise IndexError.
Proof.
  destruct T as (H2 & I & Lcl & Lcd & Lcm). intros H01 H1. assert (Lc := cn_length alpha cl cd Lcl Lcd). fold n in Lc.
  unfold gradient2. rewrite slice_length by lia. replace (Nat.ltb (i1 - i0) 2) with true by (symmetry; apply Nat.ltb_lt; lia). reflexivity.
Qed.

(** What the tail does. *)
Definition result (a0 d0 m0 : R) (i0 h i1 : nat) (u : unsteady) : Prop :=
  us_alpha0 u = a0 /\ us_Cd0 u = d0 /\ us_Cm0 u = m0 /\
  us_Cn1 u = normal alpha cl cd i1 /\
  (exists l2 i2, closest alpha ((nth i0 alpha 0 + nth i1 alpha 0) / 2 - 30) l2 /\
     breaks (fun i => Rabs (above alpha cm l2 i0 i)) l2 i0 i2 /\ us_Cn2 u = normal alpha cl cd i2) /\
  (exists j, (i0 <= j < i1)%nat /\ us_Cnalpha u = row_slope alpha cl cd i0 i1 j) /\
  (forall j, (i0 <= j < i1)%nat -> row_slope alpha cl cd i0 i1 j <= us_Cnalpha u) /\
  (exists z ia, closest alpha 0 z /\ breaks (fun i => - above alpha cd z i1 i) z i1 ia /\ us_alpha1 u = nth ia alpha 0) /\
  us_alpha2 u = - us_alpha1 u /\ us_Alpha u = alpha /\ us_Cl u = cl /\ us_Cd u = cd /\ us_Cm u = cm.

Lemma tail_run a0 d0 m0 l i0 : (l < n)%nat -> (i0 < n)%nat ->
  exists h1, closest alpha (nth i0 alpha 0 + 35) h1 /\
  (((l < h1)%nat /\ (forall i, ~ dip cm l h1 i) /\ tail a0 d0 m0 l i0 = Raise IndexError) \/
   (exists h i1 l2, last_dip cm l h1 h /\ breaks (above alpha cm i0 h) i0 h i1 /\ (i1 < n)%nat /\
     closest alpha ((nth i0 alpha 0 + nth i1 alpha 0) / 2 - 30) l2 /\
     (((l2 < h)%nat /\ (forall i, ~ dip cm l2 h i) /\ tail a0 d0 m0 l i0 = Raise IndexError) \/
      ((exists h2, last_dip cm l2 h h2) /\ (i1 < i0 + 2)%nat /\ tail a0 d0 m0 l i0 = Raise IndexError) \/
      ((exists h2, last_dip cm l2 h h2) /\ (i0 + 2 <= i1)%nat /\
        exists u, tail a0 d0 m0 l i0 = Ok u /\ result a0 d0 m0 i0 h i1 u)))).
Proof.
  intros Hl H0. destruct T as (H2 & I & Lcl & Lcd & Lcm). fold n in I, H2, Lcl, Lcd, Lcm.
  assert (Lc := cn_length alpha cl cd Lcl Lcd). fold n in Lc.
  unfold tail. rewrite at_ok by exact H0. cbn [bind].
  destruct (nearest_ok alpha (nth i0 alpha 0 + 35) alpha_ne) as (h1 & Eh1 & Ch1). rewrite Eh1. cbn [bind].
  exists h1. split; [exact Ch1|]. assert (Hh1 : (h1 < n)%nat) by (destruct Ch1; assumption).
  assert (S1 := last_local_min_spec cm l h1 ltac:(lia) ltac:(lia)).
  destruct (last_local_min cm l h1) as [h|e].
  2:{ left. destruct S1 as (-> & A & B). auto. }
  right. destruct S1 as (D1 & Hh). cbn [bind]. rewrite Lcm in Hh.
  destruct (find_breakpoint_spec alpha cm i0 h 1 I H0 Hh Lcm) as (i1 & E1 & Hi1 & B1). rewrite E1. cbn [bind].
  rewrite at_ok by (rewrite Lc; exact Hi1). cbn [bind]. rewrite at_ok by exact Hi1. cbn [bind].
  destruct (nearest_ok alpha ((nth i0 alpha 0 + nth i1 alpha 0) / 2 - 30) alpha_ne) as (l2 & El2 & Cl2). rewrite El2. cbn [bind].
  assert (Hl2 : (l2 < n)%nat) by (destruct Cl2; assumption).
  exists h, i1, l2. split; [exact D1|]. split; [eapply breaks_ext; [|exact B1]; intros; cbn beta; rewrite dev_one; reflexivity|].
  split; [exact Hi1|]. split; [exact Cl2|].
  assert (S2 := last_local_min_spec cm l2 h ltac:(lia) ltac:(lia)).
  destruct (last_local_min cm l2 h) as [h2|e].
  2:{ left. destruct S2 as (-> & A & B). auto. }
  right. destruct S2 as (D2 & _). cbn [bind].
  destruct (find_breakpoint_spec alpha cm l2 i0 0 I Hl2 H0 Lcm) as (i2 & E2 & Hi2 & B2). rewrite E2. cbn [bind].
  rewrite at_ok by (rewrite Lc; exact Hi2). cbn [bind].
  destruct (Nat.lt_ge_cases i1 (i0 + 2)) as [L|L].
  - left. split; [eauto|]. split; [exact L|]. rewrite slopes_few by (assumption || lia). reflexivity.
  - right. split; [eauto|]. split; [exact L|].
    destruct (slopes_spec i0 i1 L ltac:(lia)) as (s & m & Es & Em & J & F). rewrite Es. cbn [bind]. rewrite Em. cbn [bind].
    destruct (nearest_ok alpha 0 alpha_ne) as (z & Ez & Cz). rewrite Ez. cbn [bind]. assert (Hz : (z < n)%nat) by (destruct Cz; assumption).
    destruct (find_breakpoint_spec alpha cd z i1 (-1) I Hz Hi1 Lcd) as (ia & Ea & Ha & Ba). rewrite Ea. cbn [bind].
    rewrite at_ok by exact Ha. cbn [bind]. eexists. split; [reflexivity|].
    unfold result. cbn [us_alpha0 us_Cd0 us_Cm0 us_Cn1 us_Cn2 us_Cnalpha us_alpha1 us_alpha2 us_Alpha us_Cl us_Cd us_Cm].
    do 3 (split; [reflexivity|]). split; [apply cn_nth; auto|].
    split. { exists l2, i2. split; [exact Cl2|]. split; [|apply cn_nth; auto].
             eapply breaks_ext; [|exact B2]. intros; cbn beta; rewrite dev_zero; reflexivity. }
    split; [exact J|]. split; [exact F|].
    split. { exists z, ia. split; [exact Cz|]. split; [|reflexivity].
             eapply breaks_ext; [|exact Ba]. intros; cbn beta; rewrite dev_minus; reflexivity. }
    split; [ring|]. auto.
Qed.
End Run.

Definition tiny : R := 1 / 10000000000.

Lemma closest_lt l x i : closest l x i -> (i < length l)%nat.
Proof. intros (H & _). exact H. Qed.

Lemma unsteady_moving raw alpha cl cd cm u : table_ok alpha cl cd cm -> changes tiny cm ->
  eval_unsteady raw alpha cl cd cm = Ok u ->
  exists a0 d0 m0 l i0 h1 h i1, zero_lift raw alpha cl cd cm a0 d0 m0 /\ closest alpha (-30) l /\ closest alpha a0 i0 /\
    closest alpha (nth i0 alpha 0 + 35) h1 /\ last_dip cm l h1 h /\
    breaks (above alpha cm i0 h) i0 h i1 /\ (i0 + 2 <= i1)%nat /\ (i1 < length alpha)%nat /\ result alpha cl cd cm a0 d0 m0 i0 h i1 u.
Proof.
  intros T C E. destruct (prefix raw alpha cl cd cm T) as (l & h30 & Cl & Ch & [(_ & _ & F)|(a0 & d0 & m0 & i0 & Z & C0 & Et & _)]).
  { rewrite F in E. discriminate. }
  rewrite (Et C) in E.
  destruct (tail_run alpha cl cd cm T a0 d0 m0 l i0 (closest_lt _ _ _ Cl) (closest_lt _ _ _ C0)) as (h1 & Ch1 & [(_ & _ & F)|(h & i1 & l2 & D & B & H1 & C2 & K)]).
  { rewrite F in E. discriminate. }
  destruct K as [(_ & _ & F)|[(_ & _ & F)|(_ & L & u' & Eu & Hu)]]; [rewrite F in E; discriminate|rewrite F in E; discriminate|].
  rewrite Eu in E. apply ok_inj in E. subst u'. exists a0, d0, m0, l, i0, h1, h, i1. auto 12.
Qed.

Lemma unsteady_flat raw alpha cl cd cm : table_ok alpha cl cd cm -> ~ changes tiny cm ->
  (constant cl \/ exists l h, closest alpha (-30) l /\ closest alpha 30 h /\ (l < h)%nat) ->
  exists a0 d0 m0, zero_lift raw alpha cl cd cm a0 d0 m0 /\
    eval_unsteady raw alpha cl cd cm = Ok (mkUnsteady a0 d0 m0 0 0 0 0 0 alpha cl cd cm).
Proof.
  intros T C W. destruct (prefix raw alpha cl cd cm T) as (l & h & Cl & Ch & [(N & L & _)|(a0 & d0 & m0 & i0 & Z & C0 & _ & E)]).
  { exfalso. destruct W as [K|(l' & h' & Cl' & Ch' & L')]; [exact (N K)|].
    rewrite (closest_unique _ _ _ _ Cl Cl'), (closest_unique _ _ _ _ Ch Ch') in L. lia. }
  exists a0, d0, m0. split; [exact Z|]. rewrite (E C). replace (-1 * 0) with 0 by ring. reflexivity.
Qed.

Lemma convex_below x y lo hi j : (forall i j, (i < j < length x)%nat -> nth i x 0 < nth j x 0) -> convex x y ->
  (lo <= j < hi)%nat -> (hi < length x)%nat -> above x y lo hi j <= 0.
Proof.
  intros I K Hj Hh. unfold above, chord. destruct (Nat.eq_dec j lo) as [->|N].
  - replace (nth lo x 0 - nth lo x 0) with 0 by ring. unfold Rdiv. rewrite Rmult_0_l. lra.
  - specialize (K lo j hi ltac:(lia) Hh). assert (A : nth lo x 0 < nth hi x 0) by (apply I; lia).
    assert (B : nth j y 0 - nth lo y 0 <= (nth hi y 0 - nth lo y 0) * (nth j x 0 - nth lo x 0) / (nth hi x 0 - nth lo x 0)).
    { apply Rmult_le_reg_r with (nth hi x 0 - nth lo x 0); [lra|]. unfold Rdiv. rewrite Rmult_assoc, Rinv_l, Rmult_1_r by lra. exact K. }
    unfold Rdiv in *. rewrite Rmult_assoc in B. lra.
Qed.
Lemma last_dip_lt c lo hi h n : last_dip c lo hi h -> (lo < n)%nat -> (hi <= n)%nat -> (h < n)%nat.
Proof. intros [(_ & ->)|((D & _) & _)] A B; lia. Qed.

Lemma unsteady_convex raw alpha cl cd cm : table_ok alpha cl cd cm -> changes tiny cm -> convex alpha cm ->
  exists e, eval_unsteady raw alpha cl cd cm = Raise e.
Proof.
  intros T C K. destruct (eval_unsteady raw alpha cl cd cm) as [u|e] eqn:E; [exfalso|eauto].
  destruct (unsteady_moving _ _ _ _ _ _ T C E) as (a0 & d0 & m0 & l & i0 & h1 & h & i1 & _ & Cl & C0 & Ch1 & D & B & L & H1 & _).
  assert (Hh : (h < length alpha)%nat).
  { apply (last_dip_lt _ _ _ _ (length alpha) D); [exact (closest_lt _ _ _ Cl)|]. apply closest_lt in Ch1. lia. }
  destruct B as [(A & P & _)|(A & _)]; [|lia].
  assert (Q := convex_below alpha cm i0 h i1 (proj1 (proj2 T)) K A Hh). lra.
Qed.

Lemma unsteady_when raw alpha cl cd cm : table_ok alpha cl cd cm -> changes tiny cm -> no_plateau cm ->
  (constant cl \/ exists l h, closest alpha (-30) l /\ closest alpha 30 h /\ (l < h)%nat) ->
  exists a0 d0 m0 l i0 h1 h i1, zero_lift raw alpha cl cd cm a0 d0 m0 /\ closest alpha (-30) l /\ closest alpha a0 i0 /\
    closest alpha (nth i0 alpha 0 + 35) h1 /\ last_dip cm l h1 h /\ breaks (above alpha cm i0 h) i0 h i1 /\
    ((i0 + 2 <= i1)%nat -> exists u, eval_unsteady raw alpha cl cd cm = Ok u) /\
    ((i1 < i0 + 2)%nat -> eval_unsteady raw alpha cl cd cm = Raise IndexError).
Proof.
  intros T C NP W. assert (Lm : length cm = length alpha) by apply T.
  destruct (prefix raw alpha cl cd cm T) as (l & h30 & Cl & Ch & [(N & L & _)|(a0 & d0 & m0 & i0 & Z & C0 & Et & _)]).
  { exfalso. destruct W as [K|(l' & h' & Cl' & Ch' & L')]; [exact (N K)|].
    rewrite (closest_unique _ _ _ _ Cl Cl'), (closest_unique _ _ _ _ Ch Ch') in L. lia. }
  destruct (tail_run alpha cl cd cm T a0 d0 m0 l i0 (closest_lt _ _ _ Cl) (closest_lt _ _ _ C0)) as (h1 & Ch1 & K).
  assert (Hh1 := closest_lt _ _ _ Ch1). assert (Hl := closest_lt _ _ _ Cl).
  destruct K as [(L & ND & _)|(h & i1 & l2 & D & B & H1 & C2 & K)].
  { exfalso. destruct (no_plateau_dip cm l h1 NP L ltac:(lia)) as (i & Di). exact (ND i Di). }
  assert (Hh : (h < length alpha)%nat) by (apply (last_dip_lt _ _ _ _ (length alpha) D); lia).
  exists a0, d0, m0, l, i0, h1, h, i1. do 6 (split; [assumption|]). rewrite (Et C).
  destruct K as [(L & ND & _)|[(_ & L & F)|(_ & L & u & Eu & _)]].
  - exfalso. destruct (no_plateau_dip cm l2 h NP L ltac:(lia)) as (i & Di). exact (ND i Di).
  - split; [intros; lia|]. intros _. exact F.
  - split; [eauto|intros; lia].
Qed.
