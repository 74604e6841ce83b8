(** Properties of the model of numpy.interp (C61). *)
From Coq Require Import Reals Bool Arith List Lra Lia.
From Verif Require Import Prelim Interp InterpSpec.
Import ListNotations.
Open Scope R_scope.

Lemma increasing_tail x l : increasing (x :: l) -> increasing l.
Proof. intros H i j Hij. apply (H (S i) (S j)). simpl. lia. Qed.

Lemma increasing_head x l i : increasing (x :: l) -> (i < length l)%nat -> x < nth i l 0.
Proof. intros H Hi. apply (H 0%nat (S i)). simpl. lia. Qed.

Lemma increasing_cons x l : increasing l -> (l = [] \/ x < nth 0 l 0) -> increasing (x :: l).
Proof.
  intros H H0 i j Hij. simpl in Hij. destruct j as [|j]; [lia|]. destruct i as [|i].
  - simpl. destruct H0 as [->|H0]; [simpl in Hij; lia|].
    destruct j as [|j]; [assumption|]. specialize (H 0%nat (S j) ltac:(lia)). lra.
  - apply H. lia.
Qed.

Lemma increasing_le l i j : increasing l -> (i <= j < length l)%nat -> nth i l 0 <= nth j l 0.
Proof.
  intros H Hij. destruct (Nat.eq_dec i j) as [->|]; [lra|]. specialize (H i j ltac:(lia)). lra.
Qed.

Lemma increasing_nondecreasing l : increasing l -> nondecreasing l.
Proof. intros H i j Hij. specialize (H i j Hij). lra. Qed.

Lemma seg_value x0 f0 x1 f1 x : x0 < x1 ->
  (seg x0 f0 x1 f1 x - f0) * (x1 - x0) = (f1 - f0) * (x - x0).
Proof. intros H. unfold seg. rb_if; [subst; ring|field; lra]. Qed.

Lemma from_polygon x xp : forall x0 f0 fp, length xp = length fp -> increasing (x0 :: xp) -> x0 <= x ->
  polygon_value (x0 :: xp) (f0 :: fp) x (interp_from x x0 f0 xp fp).
Proof.
  induction xp as [|x1 xp IH]; intros x0 f0 fp HL HI Hx.
  - destruct fp; [|discriminate]. split; [auto|]. split; [auto|]. intros i Hi. simpl in Hi. lia.
  - destruct fp as [|f1 fp]; [discriminate|]. simpl in HL.
    assert (H01 : x0 < x1) by (apply (HI 0%nat 1%nat); simpl; lia).
    pose proof (increasing_tail _ _ HI) as HI'.
    assert (Hge : forall i, (i < length (x1 :: xp))%nat -> x1 <= nth i (x1 :: xp) 0).
    { intros i Hi. apply (increasing_le (x1 :: xp) 0 i HI'). lia. }
    cbn [interp_from]. destruct (rltb x x1) eqn:E; rb_hyps.
    + split; [|split].
      * intros H. simpl in H. assert (x = x0) by lra. subst. simpl. unfold seg. rb_if; [reflexivity|congruence].
      * intros H. replace (length (x0 :: x1 :: xp) - 1)%nat with (S (length xp)) in * by (simpl; lia).
        change (nth (length xp) (x1 :: xp) 0 <= x) in H. specialize (Hge (length xp) ltac:(simpl; lia)). lra.
      * intros [|i] Hi H.
        -- simpl. apply seg_value. assumption.
        -- change (nth i (x1 :: xp) 0 <= x <= nth (S i) (x1 :: xp) 0) in H. simpl in Hi. specialize (Hge i ltac:(simpl; lia)). lra.
    + specialize (IH x1 f1 fp ltac:(lia) HI' E). destruct IH as (I1 & I2 & I3). split; [|split].
      * intros H. simpl in H. lra.
      * intros H. replace (length (x0 :: x1 :: xp) - 1)%nat with (S (length (x1 :: xp) - 1)) in * by (simpl; lia).
        apply I2. exact H.
      * intros [|i] Hi H.
        -- simpl in H. assert (x = x1) by lra. rewrite I1 by (simpl; lra). subst. simpl. ring.
        -- apply (I3 i); [simpl in *; lia|exact H].
Qed.

Lemma interp_polygon : forall x xp fp, increasing xp -> length xp = length fp -> xp <> [] ->
  polygon_value xp fp x (interp x xp fp).
Proof.
  intros x xp fp HI HL Hne. destruct xp as [|x0 xp]; [congruence|]. destruct fp as [|f0 fp]; [discriminate|].
  cbn [interp]. simpl in HL. destruct (rltb x x0) eqn:E; rb_hyps.
  - assert (Hge : forall i, (i < length (x0 :: xp))%nat -> x0 <= nth i (x0 :: xp) 0)
      by (intros i Hi; apply (increasing_le (x0 :: xp) 0 i HI); lia).
    split; [auto|]. split.
    + intros H. specialize (Hge (length (x0 :: xp) - 1)%nat ltac:(simpl; lia)). lra.
    + intros i Hi H. specialize (Hge i ltac:(lia)). lra.
  - apply from_polygon; [lia|assumption|assumption].
Qed.

(** Some clause of [polygon_value] applies at every x. *)
Lemma locate xp : forall x, increasing xp -> xp <> [] ->
  x <= nth 0 xp 0 \/ nth (length xp - 1) xp 0 <= x \/
  exists i, (S i < length xp)%nat /\ nth i xp 0 <= x <= nth (S i) xp 0.
Proof.
  induction xp as [|x0 xp IH]; intros x HI Hne; [congruence|].
  destruct (Rle_dec x x0) as [H|H]; [left; exact H|]. right.
  destruct xp as [|x1 xp]; [left; simpl; lra|].
  destruct (IH x (increasing_tail _ _ HI) ltac:(discriminate)) as [A|[A|(i & A & B)]].
  - right. exists 0%nat. simpl in *. split; [lia|lra].
  - left. replace (length (x0 :: x1 :: xp) - 1)%nat with (S (length (x1 :: xp) - 1)) by (simpl; lia). exact A.
  - right. exists (S i). split; [simpl in *; lia|exact B].
Qed.

Lemma polygon_unique : forall xp fp x y y', increasing xp -> xp <> [] ->
  polygon_value xp fp x y -> polygon_value xp fp x y' -> y = y'.
Proof.
  intros xp fp x y y' HI Hne (A1 & A2 & A3) (B1 & B2 & B3).
  destruct (locate xp x HI Hne) as [L|[L|(i & L1 & L2)]].
  - rewrite A1, B1 by assumption. reflexivity.
  - rewrite A2, B2 by assumption. reflexivity.
  - specialize (A3 i L1 L2). specialize (B3 i L1 L2). specialize (HI i (S i) ltac:(lia)).
    rewrite <- B3 in A3. apply Rmult_eq_reg_r in A3; lra.
Qed.

Lemma interp_node : forall xp fp i, increasing xp -> length xp = length fp -> (i < length xp)%nat ->
  interp (nth i xp 0) xp fp = nth i fp 0.
Proof.
  intros xp fp i HI HL Hi. assert (Hne : xp <> []) by (intros ->; simpl in Hi; lia).
  destruct (interp_polygon (nth i xp 0) xp fp HI HL Hne) as (A1 & A2 & A3).
  destruct (Nat.eq_dec i (length xp - 1)) as [->|Hn]; [apply A2; lra|].
  specialize (A3 i ltac:(lia)). specialize (HI i (S i) ltac:(lia)). specialize (A3 ltac:(lra)).
  replace (nth i xp 0 - nth i xp 0) with 0 in A3 by ring. rewrite Rmult_0_r in A3.
  apply Rmult_integral in A3. destruct A3; lra.
Qed.

Lemma seg_between x0 x1 f0 f1 x y lo hi : x0 < x1 -> x0 <= x <= x1 -> (y - f0) * (x1 - x0) = (f1 - f0) * (x - x0) ->
  lo <= f0 <= hi -> lo <= f1 <= hi -> lo <= y <= hi.
Proof.
  intros H01 Hx E H0 H1. assert (Ey : y * (x1 - x0) = f0 * (x1 - x) + f1 * (x - x0)) by lra.
  split; apply Rmult_le_reg_r with (x1 - x0); try lra; rewrite Ey; nra.
Qed.

Lemma interp_bounds : forall x xp fp lo hi, increasing xp -> length xp = length fp -> xp <> [] ->
  (forall i, (i < length fp)%nat -> lo <= nth i fp 0 <= hi) -> lo <= interp x xp fp <= hi.
Proof.
  intros x xp fp lo hi HI HL Hne Hb. assert (0 < length xp)%nat by (destruct xp; [congruence|simpl; lia]).
  destruct (interp_polygon x xp fp HI HL Hne) as (A1 & A2 & A3).
  destruct (locate xp x HI Hne) as [L|[L|(i & L1 & L2)]].
  - rewrite A1 by assumption. apply Hb. lia.
  - rewrite A2 by assumption. apply Hb. lia.
  - refine (seg_between _ _ _ _ _ _ _ _ _ L2 (A3 i L1 L2) _ _); [apply HI; lia|apply Hb; lia|apply Hb; lia].
Qed.

Lemma interp_clamped : forall x xp fp, increasing xp -> length xp = length fp -> xp <> [] ->
  (x <= nth 0 xp 0 -> interp x xp fp = nth 0 fp 0) /\
  (nth (length xp - 1) xp 0 <= x -> interp x xp fp = nth (length xp - 1) fp 0).
Proof. intros x xp fp HI HL Hne. destruct (interp_polygon x xp fp HI HL Hne) as (A1 & A2 & _). auto. Qed.

Lemma nondecreasing_le l i j : nondecreasing l -> (i <= j < length l)%nat -> nth i l 0 <= nth j l 0.
Proof.
  intros H Hij. destruct (Nat.eq_dec i j) as [->|]; [lra|]. apply H. lia.
Qed.

(** Values between table entries of the segment containing x, in terms of any index. *)
Lemma interp_bracket x xp fp : increasing xp -> length xp = length fp -> xp <> [] -> nondecreasing fp ->
  forall i, (i < length xp)%nat ->
  (nth i xp 0 <= x -> nth i fp 0 <= interp x xp fp) /\ (x <= nth i xp 0 -> interp x xp fp <= nth i fp 0).
Proof.
  intros HI HL Hne HF i Hi. destruct (interp_polygon x xp fp HI HL Hne) as (A1 & A2 & A3).
  destruct (locate xp x HI Hne) as [L|[L|(j & L1 & L2)]].
  - rewrite A1 by assumption. split; intros H.
    + assert (i = 0)%nat as ->; [|lra]. destruct i; [reflexivity|].
      specialize (HI 0%nat (S i) ltac:(lia)). lra.
    + apply nondecreasing_le; [assumption|lia].
  - rewrite A2 by assumption. split; intros H.
    + apply nondecreasing_le; [assumption|lia].
    + assert (i = length xp - 1)%nat as ->; [|lra]. destruct (Nat.eq_dec i (length xp - 1)); [assumption|].
      specialize (HI i (length xp - 1)%nat ltac:(lia)). lra.
  - specialize (A3 j L1 L2).
    assert (HF' : nth j fp 0 <= nth (S j) fp 0) by (apply HF; lia).
    assert (HB : nth j fp 0 <= interp x xp fp <= nth (S j) fp 0).
    { refine (seg_between _ _ _ _ _ _ _ _ _ L2 A3 _ _); [apply HI; lia|lra|lra]. }
    split; intros H.
    + destruct (Nat.le_gt_cases i j).
      * assert (nth i fp 0 <= nth j fp 0) by (apply nondecreasing_le; [assumption|lia]). lra.
      * destruct (Nat.eq_dec i (S j)) as [->|].
        -- assert (x = nth (S j) xp 0) by lra. subst x. rewrite interp_node by (assumption || lia). lra.
        -- specialize (HI (S j) i ltac:(lia)). lra.
    + destruct (Nat.le_gt_cases (S j) i).
      * assert (nth (S j) fp 0 <= nth i fp 0) by (apply nondecreasing_le; [assumption|lia]). lra.
      * destruct (Nat.eq_dec i j) as [->|].
        -- assert (x = nth j xp 0) by lra. subst x. rewrite interp_node by (assumption || lia). lra.
        -- specialize (HI i j ltac:(lia)). lra.
Qed.

Lemma interp_monotone : forall x y xp fp, increasing xp -> length xp = length fp -> xp <> [] -> nondecreasing fp ->
  x <= y -> interp x xp fp <= interp y xp fp.
Proof.
  intros x y xp fp HI HL Hne HF Hxy.
  assert (0 < length xp)%nat by (destruct xp; [congruence|simpl; lia]).
  pose proof (interp_bracket x xp fp HI HL Hne HF) as Bx.
  pose proof (interp_bracket y xp fp HI HL Hne HF) as By.
  destruct (interp_polygon x xp fp HI HL Hne) as (A1 & A2 & A3).
  destruct (interp_polygon y xp fp HI HL Hne) as (C1 & C2 & C3).
  destruct (locate xp x HI Hne) as [L|[L|(i & L1 & L2)]].
  - rewrite A1 by assumption. destruct (Rle_dec (nth 0 xp 0) y) as [K|K].
    + apply By; [lia|assumption].
    + rewrite C1 by lra. lra.
  - rewrite A2, C2 by lra. lra.
  - destruct (Rle_dec (nth (S i) xp 0) y) as [K|K].
    + apply Rle_trans with (nth (S i) fp 0); [apply Bx; [lia|lra]|apply By; [lia|lra]].
    + specialize (A3 i L1 L2). specialize (C3 i L1 ltac:(lra)).
      specialize (HI i (S i) ltac:(lia)).
      assert (HF' : nth i fp 0 <= nth (S i) fp 0) by (apply HF; lia).
      apply Rmult_le_reg_r with (nth (S i) xp 0 - nth i xp 0); [lra|]. nra.
Qed.

(** Affine tables. *)
Lemma interp_affine : forall x xp a b, increasing xp -> xp <> [] ->
  nth 0 xp 0 <= x <= nth (length xp - 1) xp 0 -> interp x xp (map (fun t => a * t + b) xp) = a * x + b.
Proof.
  intros x xp a b HI Hne Hx.
  assert (HL : length xp = length (map (fun t => a * t + b) xp)) by (rewrite map_length; reflexivity).
  assert (Hl : (0 < length xp)%nat) by (destruct xp; [congruence|simpl; lia]).
  apply (polygon_unique xp (map (fun t => a * t + b) xp) x); [assumption|assumption|apply interp_polygon; assumption|].
  assert (N : forall i, (i < length xp)%nat -> nth i (map (fun t => a * t + b) xp) 0 = a * nth i xp 0 + b).
  { intros i Hi. rewrite (nth_indep _ 0 (a * 0 + b)) by (rewrite map_length; assumption).
    apply (map_nth (fun t => a * t + b)). }
  split; [|split].
  - intros H. rewrite N by lia. assert (x = nth 0 xp 0) as -> by lra. reflexivity.
  - intros H. rewrite N by lia. assert (x = nth (length xp - 1) xp 0) as -> by lra. reflexivity.
  - intros i Hi H. rewrite !N by lia. ring.
Qed.

Lemma interp_const : forall x xp c, increasing xp -> xp <> [] -> interp x xp (map (fun _ => c) xp) = c.
Proof.
  intros x xp c HI Hne.
  assert (c <= interp x xp (map (fun _ => c) xp) <= c); [|lra].
  apply interp_bounds; [assumption|rewrite map_length; reflexivity|assumption|].
  intros i Hi. rewrite map_length in Hi.
  rewrite (nth_indep _ 0 c) by (rewrite map_length; assumption). rewrite (map_nth (fun _ => c) xp 0). lra.
Qed.
