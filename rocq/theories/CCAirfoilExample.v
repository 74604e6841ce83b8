(** Concrete airfoils for the examples and the refutation. *)
From Coq Require Import Reals List Bool Lra Lia.
From Verif Require Import Prelim Num FlProofs Interp InterpSpec Polar PolarExt AeroDyn UnsteadyProofs StationProofs CCAirfoil CCAirfoilSpec CCAirfoilProofs CCUnsteadyProofs.
Import ListNotations.
Open Scope R_scope.

Lemma closest_exact l x i : increasing l -> (i < length l)%nat -> nth i l 0 = x -> closest l x i.
Proof.
  intros I H E. split; [exact H|]. rewrite E. replace (x - x) with 0 by ring. rewrite Rabs_R0. split.
  - intros. apply Rabs_pos.
  - intros j Hj. apply Rabs_pos_lt. specialize (I j i ltac:(lia)). lra.
Qed.

(** Splines: lift proportional to the angle, drag 1/100 + angle^2, at all Reynolds numbers. *)
Definition ex_af : ccairfoil :=
  mkCC [- PI; -20 * PI / 180; 0; 40 * PI / 180; PI] false false
    (mkSpline (fun a _ => 6 * a) (fun _ _ => 6) (fun _ _ => Ok 0))
    (mkSpline (fun a _ => 1 / 100 + a * a) (fun a _ => 2 * a) (fun _ _ => Ok 0)) None.
Ltac list_cases := repeat match goal with i : nat |- _ => destruct i as [|i]; cbn [nth] in *; try lia; try lra end.
Lemma ex_af_sorted : increasing (cc_alpha ex_af).
Proof. intros i j H. assert (P := PI_RGT_0). cbn [cc_alpha ex_af length] in *. list_cases. Qed.
Lemma ex_af_blade : ~ counts_as_cylinder (cc_alpha ex_af).
Proof.
  intros (i & j & Ci & Cj & L). assert (S := ex_af_sorted).
  rewrite (closest_unique _ _ _ _ Ci (closest_exact _ _ 1 S ltac:(cbn; lia) eq_refl)) in L.
  rewrite (closest_unique _ _ _ _ Cj (closest_exact _ _ 3 S ltac:(cbn; lia) eq_refl)) in L. lia.
Qed.
(** A table of three widely spaced angles. *)
Definition ex_cyl : ccairfoil :=
  mkCC [- PI; 0; PI] true false (mkSpline (fun _ _ => 0) (fun _ _ => 0) (fun _ _ => Ok 0))
    (mkSpline (fun _ _ => 1) (fun _ _ => 0) (fun _ _ => Ok 0)) None.
Lemma ex_cyl_counts : counts_as_cylinder (cc_alpha ex_cyl).
Proof.
  assert (P := PI_RGT_0). exists 1%nat, 1%nat. split; [|split; [|lia]]; unfold closest; cbn [cc_alpha ex_cyl length].
  - split; [lia|]. replace (0 - -20 * PI / 180) with (20 * PI / 180) by field. split; intros j Hj; list_cases; unfold Rabs; repeat destruct (Rcase_abs _); lra.
  - split; [lia|]. split; intros j Hj; list_cases; unfold Rabs; repeat destruct (Rcase_abs _); lra.
Qed.

(** Polars with zero lift. *)
Lemma const_repeat n : constant (repeat 0 n).
Proof. intros i j Hi Hj. rewrite !nth_repeat. reflexivity. Qed.

(** Moment 0 up to 35 degrees, 1 at 70 degrees. *)
Definition flat_a : list R := [-30; 0; 35; 70].
Definition flat_m : list R := [0; 0; 0; 1].
Lemma flat_ok : table_ok flat_a (repeat 0 4) (repeat 0 4) flat_m.
Proof. split; [cbn; lia|]. split; [|auto]. intros i j H. unfold flat_a in *; cbn [length] in *. list_cases. Qed.

Lemma no_dip_fails raw alpha cl cd cm a0 d0 m0 l i0 h1 : table_ok alpha cl cd cm -> changes tiny cm ->
  zero_lift raw alpha cl cd cm a0 d0 m0 -> closest alpha (-30) l -> closest alpha a0 i0 -> closest alpha (nth i0 alpha 0 + 35) h1 ->
  (l < h1)%nat -> (forall i, ~ dip cm l h1 i) -> eval_unsteady raw alpha cl cd cm = Raise IndexError.
Proof.
  intros T C Z Cl C0 Ch1 L ND.
  assert (U : forall a d m, zero_lift raw alpha cl cd cm a d m -> a = a0).
  { intros a d m [(K & Ea & _)|(NK & l' & h' & Cl' & Ch' & _ & Ea & _)]; destruct Z as [(K2 & E0 & _)|(NK2 & l2 & h2 & Cl2 & Ch2 & _ & E0 & _)]; try tauto.
    - congruence.
    - rewrite (closest_unique _ _ _ _ Cl' Cl2), (closest_unique _ _ _ _ Ch' Ch2) in Ea. congruence. }
  destruct (prefix raw alpha cl cd cm T) as (l' & h30 & Cl' & Ch & [(N & L' & _)|(a0' & d0' & m0' & i0' & Z' & C0' & Et & _)]).
  { exfalso. destruct Z as [(K & _)|(_ & l2 & h2 & Cl2 & Ch2 & L2 & _)]; [exact (N K)|].
    rewrite (closest_unique _ _ _ _ Cl' Cl2), (closest_unique _ _ _ _ Ch Ch2) in L'. lia. }
  rewrite (Et C). rewrite (U _ _ _ Z') in C0'. rewrite (closest_unique _ _ _ _ C0' C0).
  rewrite (closest_unique _ _ _ _ Cl' Cl).
  destruct (tail_run alpha cl cd cm T a0' d0' m0' l i0 (closest_lt _ _ _ Cl) (closest_lt _ _ _ C0)) as (h1' & Ch1' & [(_ & _ & F)|(h & i1 & l2 & D & _)]).
  { exact F. }
  exfalso. rewrite (closest_unique _ _ _ _ Ch1' Ch1) in D. destruct D as [(D & _)|(D & _)]; [lia|exact (ND _ D)].
Qed.
Lemma flat_changes : changes tiny flat_m.
Proof. right. left. cbn. unfold tiny. rewrite Rabs_pos_eq; lra. Qed.
Lemma flat_fails raw : eval_unsteady raw flat_a (repeat 0 4) (repeat 0 4) flat_m = Raise IndexError.
Proof.
  assert (S : increasing flat_a) by exact (proj1 (proj2 flat_ok)).
  apply (no_dip_fails raw _ _ _ _ 0 0 0 0%nat 1%nat 2%nat flat_ok flat_changes).
  - left. split; [apply const_repeat|]. repeat split. exists 1%nat. split; [apply closest_exact; [exact S|cbn; lia|reflexivity]|reflexivity].
  - apply closest_exact; [exact S|cbn; lia|reflexivity].
  - apply closest_exact; [exact S|cbn; lia|reflexivity].
  - apply closest_exact; [exact S|cbn; lia|]. cbn. ring.
  - lia.
  - intros i (H & A & B). destruct i as [|[|i]]; [| |lia]; cbn in *; destruct A as [A|A], B as [B|B]; try lia; lra.
Qed.

(** A moment with a hump: the search succeeds. *)
Definition hump_a : list R := [-30; 0; 5; 10; 20; 35; 70].
Definition hump_m : list R := [1; 0; 1; 3; -1; 0; 1].
Definition hump_d : list R := [1; 1/10; 1/10; 1/8; 1/4; 1/2; 1].
Lemma hump_ok : table_ok hump_a (repeat 0 7) hump_d hump_m.
Proof. split; [cbn; lia|]. split; [|auto]. intros i j H. unfold hump_a in *; cbn [length] in *. list_cases. Qed.
Lemma hump_changes : changes tiny hump_m.
Proof. left. cbn. unfold tiny, Rabs. destruct (Rcase_abs _); lra. Qed.
Lemma hump_no_plateau : no_plateau hump_m.
Proof. intros i H. unfold hump_m in *; cbn [length] in *. do 6 (destruct i as [|i]; [cbn; lra|]). lia. Qed.
Lemma hump_succeeds raw : exists u, eval_unsteady raw hump_a (repeat 0 7) hump_d hump_m = Ok u.
Proof.
  assert (S : increasing hump_a) by exact (proj1 (proj2 hump_ok)).
  assert (CE : forall x i, (i < 7)%nat -> nth i hump_a 0 = x -> closest hump_a x i) by (intros; apply closest_exact; assumption).
  destruct (unsteady_when raw _ _ _ _ hump_ok hump_changes hump_no_plateau (or_introl (const_repeat 7)))
    as (a0 & d0 & m0 & l & i0 & h1 & h & i1 & Z & Cl & C0 & Ch1 & D & B & OK & _).
  apply OK. destruct Z as [(_ & -> & _)|(N & _)]; [|exfalso; apply N, const_repeat].
  rewrite (closest_unique _ _ _ _ C0 (CE 0 1%nat ltac:(lia) eq_refl)) in *.
  rewrite (closest_unique _ _ _ _ Cl (CE (-30) 0%nat ltac:(lia) eq_refl)) in *.
  assert (E1 : h1 = 5%nat). { apply (closest_unique _ _ _ _ Ch1). apply CE; [lia|]. cbn. ring. }
  subst h1. assert (Eh : h = 4%nat).
  { destruct D as [(D & _)|(D & F)]; [lia|]. assert (D4 : dip hump_m 0 5 4).
    { split; [lia|]. split; [right; cbn; lra|left; reflexivity]. }
    specialize (F 4%nat D4). destruct D as (H & _). lia. }
  subst h.
  assert (A3 : above hump_a hump_m 1 4 3 = 7 / 2) by (unfold above, chord; cbn; lra).
  assert (A2 : above hump_a hump_m 1 4 2 = 5 / 4) by (unfold above, chord; cbn; lra).
  assert (A1 : above hump_a hump_m 1 4 1 = 0) by (unfold above, chord; cbn; lra).
  destruct B as [(H & P & F & _)|(_ & F)].
  - specialize (F 3%nat ltac:(lia)). destruct (Nat.eq_dec i1 3) as [->|N3]; [lia|].
    destruct (Nat.eq_dec i1 2) as [->|N2]; [lra|]. replace i1 with 1%nat in F by lia. lra.
  - specialize (F 3%nat ltac:(lia)). lra.
Qed.

(** A moment linear in the angle. *)
Lemma linear_convex a b (alpha : list R) : convex alpha (map (fun t => a * t + b) alpha).
Proof.
  intros i j k H Hk. assert (N : forall i, (i < length alpha)%nat -> nth i (map (fun t => a * t + b) alpha) 0 = a * nth i alpha 0 + b).
  { intros q Hq. rewrite (nth_indep _ 0 (a * 0 + b)) by (rewrite map_length; exact Hq). apply (map_nth (fun t => a * t + b)). }
  rewrite !N by lia. right. ring.
Qed.

(** A fit for the constructor examples: piecewise linear in the angle, linear in the Reynolds number between the
    first and the last column. *)
Definition column (M : mat) (j : nat) : list R := map (fun i => m_at M i j) (seq 0 (m_rows M)).
Definition ex_rbs (x y : list R) (M : mat) (kx ky : nat) (s : R) : res spline :=
  Ok (mkSpline (fun a r => interp a x (column M 0) + r * (interp a x (column M (m_cols M - 1)) - interp a x (column M 0))) (fun _ _ => 0) (fun _ _ => Ok 0)).
