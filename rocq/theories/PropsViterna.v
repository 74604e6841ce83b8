(** C124, C125: lift and drag of an extrapolated polar outside the data.

    Anchors: ccblade/airfoilprep.py Polar.extrapolate, Polar.__Viterna. *)
From Coq Require Import Reals List Bool ZArith Lra Lia.
From Verif Require Import Prelim Interp Polar PolarExt InterpSpec PolarSpec PolarProofs PolarExtProofs PolarExtFacts ViternaSpec ViternaProofs.
Import ListNotations.
Open Scope R_scope.

(** ** C124: all rows outside the data follow from two functions between the last data angle and 90 degrees *)
Theorem C124_rows : forall p cdmax AR, extendable p -> 1 / 10000 <= radians (final (p_alpha p)) -> final (p_alpha p) < 90 -> -90 < first (p_alpha p) ->
  exists L D m, peak_drag p cdmax AR m /\
    (forall a, final (p_alpha p) <= a <= 90 -> continuity_pt L a) /\ continuity D /\
    L (final (p_alpha p)) = final (p_cl p) /\ L 90 = 0 /\ D (final (p_alpha p)) = final (p_cd p) /\ D 90 = m /\
    forall cdmin n, 0 <= cdmin -> (2 <= n)%nat ->
    exists b below above, extrapolate p cdmax AR cdmin n = Ok b /\
      p_alpha b = map angle below ++ p_alpha p ++ map angle above /\
      p_cl b = map lift below ++ p_cl p ++ map lift above /\
      p_cd b = map (fun c => Rmax c cdmin) (map drag below ++ p_cd p ++ map drag above) /\
      Forall (lower_row (final (p_alpha p)) (final (p_cl p)) (final (p_cd p)) (first (p_alpha p)) (first (p_cl p)) (first (p_cd p)) L D) below /\
      Forall (upper_row (final (p_alpha p)) (final (p_cl p)) L D) above /\
      (forall a, In a [-180; -180 + final (p_alpha p); -90] -> In a (map angle below)) /\
      (forall a, In a [90; 180 - final (p_alpha p); 180] -> In a (map angle above)) /\
      (first (p_alpha p) <= - final (p_alpha p) -> exists rest x, below = rest ++ [x] /\ angle x = first (p_alpha p)).
Proof.
  intros p cdmax AR X Ht H9 H0. set (cm := cdm p cdmax AR). exists (fL cm (vA p cm)), (fD cm (vB p cm)), cm.
  destruct (fL_ends p cdmax AR X Ht H9) as (E1 & E2 & E3 & E4). fold cm in E1, E2, E3, E4.
  split; [apply cdm_peak, X|]. split.
  { intros a [Ha1 Ha2]. apply fL_cont; [|exact Ha2]. apply radians_le in Ha1. lra. }
  split; [apply fD_cont|]. refine (conj E1 (conj E2 (conj E3 (conj E4 _)))). intros cdmin n Hc Hn. apply rows; assumption.
Qed.
Print Assumptions C124_rows.

(** The polar closes at 180 degrees: no lift there and equal drag at both ends. At 90 degrees to the chord on either side there is
    no lift and the peak drag. *)
Theorem C124_closes : forall p cdmax AR cdmin n, extendable p -> 1 / 10000 <= radians (final (p_alpha p)) -> final (p_alpha p) < 90 -> -90 < first (p_alpha p) ->
  0 <= cdmin -> (2 <= n)%nat ->
  exists b m d, extrapolate p cdmax AR cdmin n = Ok b /\ peak_drag p cdmax AR m /\
    (exists i j k l, (i < length (p_alpha b) /\ j < length (p_alpha b) /\ k < length (p_alpha b) /\ l < length (p_alpha b))%nat /\
       nth i (p_alpha b) 0 = -180 /\ nth j (p_alpha b) 0 = 180 /\ nth k (p_alpha b) 0 = -90 /\ nth l (p_alpha b) 0 = 90) /\
    (forall i, (i < length (p_alpha b))%nat -> nth i (p_alpha b) 0 = -180 \/ nth i (p_alpha b) 0 = 180 -> nth i (p_cl b) 0 = 0 /\ nth i (p_cd b) 0 = d) /\
    (forall i, (i < length (p_alpha b))%nat -> nth i (p_alpha b) 0 = -90 \/ nth i (p_alpha b) 0 = 90 -> nth i (p_cl b) 0 = 0 /\ nth i (p_cd b) 0 = Rmax m cdmin).
Proof.
  intros p cdmax AR cdmin n X Ht H9 H0 Hc Hn. destruct (C124_rows p cdmax AR X Ht H9 H0) as (L & D & m & Hm & _ & _ & _ & L9 & _ & D9 & Hr).
  destruct (Hr cdmin n Hc Hn) as (b & below & above & E & Ea & El & Ed & Fb & Fa & Ib & Ia & _). pose proof X as (W & _).
  assert (Han : 0 < final (p_alpha p)).
  { apply Rnot_le_lt. intros N. apply radians_le in N. replace (radians 0) with 0 in N by (unfold radians; ring). lra. }
  assert (Inside : forall a, In a (p_alpha p) -> -90 < a < 90).
  { intros a Ha. apply in_first_final in Ha; [|apply W]. lra. }
  assert (F0 : first (p_alpha p) < 90) by (apply (Inside (first (p_alpha p))), first_in, W).
  rewrite Forall_forall in Fb, Fa.
  assert (Dn : forall i, (i < length (p_alpha b))%nat -> nth i (p_cd b) 0 = Rmax (nth i (map drag below ++ p_cd p ++ map drag above) 0) cdmin).
  { intros i Hi. rewrite Ed. rewrite nth_indep with (d' := Rmax 0 cdmin).
    - apply (map_nth (fun c => Rmax c cdmin)).
    - rewrite map_length. rewrite Ea in Hi. rewrite !app_length, !map_length in *. destruct W as (_ & _ & _ & -> & _). exact Hi. }
  exists b, m, (Rmax (D 0) cdmin). split; [exact E|]. split; [exact Hm|]. split; [|split].
  - assert (N : forall a, In a (p_alpha b) -> exists i, (i < length (p_alpha b))%nat /\ nth i (p_alpha b) 0 = a) by (intros a Ha; apply (In_nth _ _ 0); exact Ha).
    destruct (N (-180)) as (i & Hi & Ei); [rewrite Ea; apply in_or_app; left; apply Ib; cbn; tauto|].
    destruct (N 180) as (j & Hj & Ej); [rewrite Ea; apply in_or_app; right; apply in_or_app; right; apply Ia; cbn; tauto|].
    destruct (N (-90)) as (k & Hk & Ek); [rewrite Ea; apply in_or_app; left; apply Ib; cbn; tauto|].
    destruct (N 90) as (l & Hl & El'); [rewrite Ea; apply in_or_app; right; apply in_or_app; right; apply Ia; cbn; tauto|].
    exists i, j, k, l. tauto.
  - intros i Hi Hx. rewrite Dn by exact Hi.
    destruct (pick2 below above p i (p_cl b) (map drag below ++ p_cd p ++ map drag above) W) with (a := nth i (p_alpha b) 0) as (x & Ix & Ex & Lx & Dx);
      [rewrite <- Ea; exact Hi|exact El|reflexivity|rewrite <- Ea; reflexivity|intros F; apply Inside in F; lra|].
    rewrite Lx, Dx. destruct Ix as [Ix|Ix]; [apply Fb in Ix|apply Fa in Ix].
    + destruct Ix as (Bx & C1 & _). assert (A : angle x = -180) by (cbv zeta in Bx; lra). destruct (C1 ltac:(lra)) as (Q1 & Q2).
      rewrite A in Q1, Q2. unfold on_line in Q1. replace (180 + -180) with 0 in Q2 by ring. rewrite Q2. split; [|reflexivity].
      apply Rmult_eq_reg_r with (final (p_alpha p)); [|lra]. lra.
    + destruct Ix as (Bx & _ & _ & C3). assert (A : angle x = 180) by (cbv zeta in Bx; lra). destruct (C3 ltac:(lra)) as (Q1 & Q2).
      rewrite A in Q1, Q2. unfold on_line in Q1. replace (180 - 180) with 0 in Q2 by ring. rewrite Q2. split; [|reflexivity].
      apply Rmult_eq_reg_r with (final (p_alpha p)); [|lra]. lra.
  - intros i Hi Hx. rewrite Dn by exact Hi.
    destruct (pick2 below above p i (p_cl b) (map drag below ++ p_cd p ++ map drag above) W) with (a := nth i (p_alpha b) 0) as (x & Ix & Ex & Lx & Dx);
      [rewrite <- Ea; exact Hi|exact El|reflexivity|rewrite <- Ea; reflexivity|intros F; apply Inside in F; lra|].
    rewrite Lx, Dx. destruct Ix as [Ix|Ix]; [apply Fb in Ix|apply Fa in Ix].
    + destruct Ix as (Bx & _ & C2 & _). assert (A : angle x = -90) by (cbv zeta in Bx; lra). destruct (C2 ltac:(lra)) as (Q1 & Q2).
      rewrite Q1, Q2, A. replace (180 + -90) with 90 by ring. rewrite L9, D9. split; [ring|reflexivity].
    + destruct Ix as (Bx & C1 & _). assert (A : angle x = 90) by (cbv zeta in Bx; lra). destruct (C1 ltac:(lra)) as (Q1 & Q2).
      rewrite Q1, Q2, A, L9, D9. split; reflexivity.
Qed.
Print Assumptions C124_closes.

Example C124_example : extendable ex_e /\ 1 / 10000 <= radians (final (p_alpha ex_e)) /\ final (p_alpha ex_e) < 90 /\ -90 < first (p_alpha ex_e) /\
  exists b i, extrapolate ex_e (13 / 10) None (1 / 1000) 15 = Ok b /\ nth i (p_alpha b) 0 = 90 /\ nth i (p_cl b) 0 = 0 /\ nth i (p_cd b) 0 = 13 / 10.
Proof.
  assert (H1 : 1 / 10000 <= radians (final (p_alpha ex_e))) by (unfold radians, final; cbn [p_alpha ex_e length nth Nat.sub]; pose proof PI2_3_2; lra).
  assert (H2 : final (p_alpha ex_e) < 90) by (unfold final; cbn; lra). assert (H3 : -90 < first (p_alpha ex_e)) by (unfold first; cbn; lra).
  refine (conj ex_e_ok (conj H1 (conj H2 (conj H3 _)))).
  destruct (C124_closes ex_e (13 / 10) None (1 / 1000) 15 ex_e_ok H1 H2 H3 ltac:(lra) ltac:(lia)) as (b & m & d & E & (Hm1 & Hm2 & Hm3) & (_ & _ & _ & l & (_ & _ & _ & Hl) & _ & _ & _ & El) & _ & H).
  exists b, l. split; [exact E|]. split; [exact El|]. destruct (H l Hl (or_intror El)) as (Q1 & Q2). split; [exact Q1|]. rewrite Q2.
  assert (M : m = 13 / 10). { destruct Hm3 as [Hm3|[Hm3|[Hm3|[Hm3|[]]]]]; [exact Hm3|lra|lra|lra]. }
  rewrite M. apply Rmax_left. lra.
Qed.

(** ** C125: lift and drag are continuous at the lower end of the data *)

(** "If the angle of a row outside the data is the first data angle, its lift is the data's." *)
Definition lower_end_joins : Prop := forall p cdmax AR cdmin n b i, extendable p -> 1 / 10000 <= radians (final (p_alpha p)) -> final (p_alpha p) < 90 ->
  -90 < first (p_alpha p) -> 0 <= cdmin -> (2 <= n)%nat -> extrapolate p cdmax AR cdmin n = Ok b ->
  (i < length (p_alpha b))%nat -> nth i (p_alpha b) 0 = first (p_alpha p) -> nth i (p_cl b) 0 = first (p_cl p).

(** For data of a symmetric airfoil the row before the data has the same angle and 0.7 of the lift. *)
Theorem C125_symmetric : forall p cdmax AR cdmin n, extendable p -> 1 / 10000 <= radians (final (p_alpha p)) -> final (p_alpha p) < 90 ->
  first (p_alpha p) = - final (p_alpha p) -> first (p_cl p) = - final (p_cl p) -> 0 <= cdmin -> (2 <= n)%nat ->
  exists b i, extrapolate p cdmax AR cdmin n = Ok b /\ (S i < length (p_alpha b))%nat /\
    nth i (p_alpha b) 0 = first (p_alpha p) /\ nth (S i) (p_alpha b) 0 = first (p_alpha p) /\
    nth i (p_cl b) 0 = 7 / 10 * first (p_cl p) /\ nth (S i) (p_cl b) 0 = first (p_cl p).
Proof.
  intros p cdmax AR cdmin n X Ht H9 Hs Hl Hc Hn.
  assert (H0 : -90 < first (p_alpha p)) by lra.
  destruct (C124_rows p cdmax AR X Ht H9 H0) as (L & D & m & _ & _ & _ & La & _ & _ & _ & Hr).
  destruct (Hr cdmin n Hc Hn) as (b & below & above & E & Ea & El & _ & Fb & _ & _ & _ & Hd). pose proof X as ((N & _ & Lc & _) & _).
  destruct (Hd ltac:(lra)) as (rest & x & -> & Ax). apply Forall_app in Fb. destruct Fb as (_ & Fx). apply Forall_inv in Fx.
  assert (Lx : lift x = 7 / 10 * first (p_cl p)).
  { destruct Fx as (_ & _ & _ & C & _). destruct (C ltac:(lra) ltac:(lra)) as (-> & _). rewrite Ax, Hs, Ropp_involutive, La, Hl. field. }
  destruct (p_alpha p) as [|a0 al] eqn:Ep; [congruence|]. destruct (p_cl p) as [|c0 cl] eqn:Ec; [discriminate Lc|].
  exists b, (length rest). split; [exact E|]. rewrite Ea, El, !map_app, <- !app_assoc. cbn [map app].
  split; [rewrite app_length, map_length; cbn [length]; lia|].
  rewrite !app_nth2 by (rewrite map_length; lia). rewrite !map_length, Nat.sub_diag. replace (S (length rest) - length rest)%nat with 1%nat by lia.
  cbn [nth]. unfold first in *. cbn [nth] in *. auto.
Qed.
Print Assumptions C125_symmetric.

Theorem C125_lower_end_refuted : ~ lower_end_joins.
Proof.
  intros H. assert (H1 : 1 / 10000 <= radians (final (p_alpha ex_y))) by (unfold radians, final; cbn [p_alpha ex_y length nth Nat.sub]; pose proof PI2_3_2; lra).
  assert (H2 : final (p_alpha ex_y) < 90) by (unfold final; cbn; lra).
  destruct (C125_symmetric ex_y (13 / 10) None (1 / 1000) 15 ex_y_ok H1 H2) as (b & i & E & Hi & Ei & _ & Li & _);
    [unfold first, final; cbn; lra|unfold first, final; cbn; lra|lra|lia|].
  specialize (H ex_y (13 / 10) None (1 / 1000) 15%nat b i ex_y_ok H1 H2 ltac:(unfold first; cbn; lra) ltac:(lra) ltac:(lia) E ltac:(lia) Ei).
  rewrite Li in H. unfold first in H. cbn in H. lra.
Qed.
Print Assumptions C125_lower_end_refuted.

(** What holds: if the data start above minus their upper end, lift and drag run along straight lines into the first data row. *)
Theorem C125_lower_end : forall p cdmax AR cdmin n, extendable p -> 1 / 10000 <= radians (final (p_alpha p)) -> final (p_alpha p) < 90 ->
  - final (p_alpha p) < first (p_alpha p) -> 0 <= cdmin -> (2 <= n)%nat ->
  exists b, extrapolate p cdmax AR cdmin n = Ok b /\
    forall i, (i < length (p_alpha b))%nat -> - final (p_alpha p) <= nth i (p_alpha b) 0 < first (p_alpha p) ->
      on_line (- final (p_alpha p)) (- (7 / 10) * final (p_cl p)) (first (p_alpha p)) (first (p_cl p)) (nth i (p_alpha b) 0) (nth i (p_cl b) 0) /\
      exists d, nth i (p_cd b) 0 = Rmax d cdmin /\
        on_line (- final (p_alpha p)) (final (p_cd p)) (first (p_alpha p)) (first (p_cd p)) (nth i (p_alpha b) 0) d.
Proof.
  intros p cdmax AR cdmin n X Ht H9 Hs Hc Hn.
  destruct (C124_rows p cdmax AR X Ht H9 ltac:(lra)) as (L & D & m & _ & _ & _ & La & _ & Da & _ & Hr).
  destruct (Hr cdmin n Hc Hn) as (b & below & above & E & Ea & El & Ed & Fb & Fa & _). pose proof X as (W & _).
  exists b. split; [exact E|]. intros i Hi Hx. rewrite Forall_forall in Fb, Fa.
  assert (Dn : nth i (p_cd b) 0 = Rmax (nth i (map drag below ++ p_cd p ++ map drag above) 0) cdmin).
  { rewrite Ed. rewrite nth_indep with (d' := Rmax 0 cdmin).
    - apply (map_nth (fun c => Rmax c cdmin)).
    - rewrite map_length. rewrite Ea in Hi. rewrite !app_length, !map_length in *. destruct W as (_ & _ & _ & -> & _). exact Hi. }
  assert (F0 : first (p_alpha p) <= final (p_alpha p)) by (apply (in_first_final (p_alpha p) (first (p_alpha p))); [apply W|apply first_in, W]).
  destruct (pick2 below above p i (p_cl b) (map drag below ++ p_cd p ++ map drag above) W) with (a := nth i (p_alpha b) 0) as (x & Ix & Ex & Lx & Dx);
    [rewrite <- Ea; exact Hi|exact El|reflexivity|rewrite <- Ea; reflexivity|intros F; apply in_first_final in F; [lra|apply W]|].
  rewrite Lx, Dn, Dx, <- Ex. rewrite <- Ex in Hx. destruct Ix as [Ix|Ix]; [apply Fb in Ix|apply Fa in Ix; destruct Ix as (Bx & _); cbv zeta in Bx; lra].
  destruct Ix as (Bx & _ & _ & C1 & C2). cbv zeta in Bx. destruct (Rlt_le_dec (- final (p_alpha p)) (angle x)) as [G|G].
  - destruct (C2 G Hs) as (Q1 & Q2). split; [exact Q1|]. exists (drag x). split; [reflexivity|exact Q2].
  - assert (A : angle x = - final (p_alpha p)) by lra. destruct (C1 ltac:(lra) (or_introl (Req_le _ _ A))) as (Q1 & Q2).
    rewrite A, Ropp_involutive in Q1, Q2. rewrite La in Q1. rewrite Da in Q2. rewrite Q1, Q2, A. unfold on_line. split; [ring|].
    exists (final (p_cd p)). split; [reflexivity|ring].
Qed.
Print Assumptions C125_lower_end.

Example C125_example : extendable ex_e /\ - final (p_alpha ex_e) < first (p_alpha ex_e) /\ 1 / 10000 <= radians (final (p_alpha ex_e)).
Proof.
  split; [exact ex_e_ok|]. unfold final, first. cbn [p_alpha ex_e length nth Nat.sub]. split; [lra|]. unfold radians. pose proof PI2_3_2. lra.
Qed.
