(** The extrapolation and correction properties, in the form stated. *)
From Coq Require Import Reals List Bool ZArith Lra Lia Sorted.
From Verif Require Import Prelim Interp Polar PolarExt InterpSpec InterpProofs PolarSpec PolarProofs PolarExtProofs PolarCmProofs.
Import ListNotations.
Open Scope R_scope.

Lemma structure p cdmax AR cdmin n : extendable p -> 0 <= cdmin -> (2 <= n)%nat ->
  exists b k m, extrapolate p cdmax AR cdmin n = Ok b /\
    p_Re b = p_Re p /\ first (p_alpha b) = -180 /\ final (p_alpha b) = 180 /\
    block_at (p_alpha b) k (p_alpha p) m /\ block_at (p_cl b) k (p_cl p) m /\
    block_at (p_cd b) k (map (fun c => Rmax c cdmin) (p_cd p)) m /\
    Forall (fun c => cdmin <= c) (p_cd b) /\
    (forall q, length (col q b) = length (p_alpha b)).
Proof.
  intros X Hmin Hn. destruct (extrapolate_full p cdmax AR cdmin n X Hmin) as (F1 & F2 & E & _).
  destruct X as (W & Hlo & Hhi & _).
  exists (ext_polar p cdmax AR cdmin n F1 F2), (length (before p n)), (length (after p n)).
  split; [exact E|]. split; [reflexivity|]. cbn [p_alpha ext_polar p_cl p_cd]. unfold ext_deg.
  split; [rewrite first_app by (apply before_ne; assumption); apply before_first; assumption|].
  split.
  { rewrite !final_app; [apply after_final; assumption|apply after_ne; assumption|].
    intros E'. apply app_eq_nil in E'. destruct W. tauto. }
  split; [eexists _, _; split; [reflexivity|rewrite !map_length; auto]|].
  split; [eexists _, _; split; [reflexivity|rewrite cl_before_length, cl_after_length; auto]|].
  split; [eexists _, _; split; [reflexivity|rewrite !map_length, cd_before_length, cd_after_length; auto]|].
  split.
  { rewrite <- !map_app. apply Forall_forall. intros c Hc. apply in_map_iff in Hc. destruct Hc as (d & <- & _). apply Rmax_r. }
  destruct W as (_ & _ & L1 & L2 & L3).
  intros []; cbn [col p_cl p_cd p_cm ext_polar]; unfold ext_deg;
    rewrite ?app_length, ?map_length, ?app_length, ?map_length, ?cl_before_length, ?cl_after_length, ?cd_before_length, ?cd_after_length; lia.
Qed.

Lemma strictly p cdmax AR cdmin n : extendable p -> 0 <= cdmin -> (2 <= n)%nat ->
  0 < final (p_alpha p) < 90 -> - final (p_alpha p) < first (p_alpha p) ->
  exists b, extrapolate p cdmax AR cdmin n = Ok b /\ increasing (p_alpha b).
Proof.
  intros X Hmin Hn H1 H2. destruct (extrapolate_full p cdmax AR cdmin n X Hmin) as (F1 & F2 & E & _).
  exists (ext_polar p cdmax AR cdmin n F1 F2). split; [exact E|]. apply angles_increasing; try assumption. apply X.
Qed.

Lemma not_strictly p cdmax AR cdmin n : extendable p -> 0 <= cdmin -> (2 <= n)%nat ->
  first (p_alpha p) <= - final (p_alpha p) ->
  exists b i, extrapolate p cdmax AR cdmin n = Ok b /\ (S i < length (p_alpha b))%nat /\
    nth i (p_alpha b) 0 = first (p_alpha p) /\ nth (S i) (p_alpha b) 0 = first (p_alpha p).
Proof.
  intros X Hmin Hn H. destruct (extrapolate_full p cdmax AR cdmin n X Hmin) as (F1 & F2 & E & _).
  destruct X as (W & _). destruct (angles_duplicate p n Hn H) as [l El].
  exists (ext_polar p cdmax AR cdmin n F1 F2), (length l). split; [exact E|].
  cbn [p_alpha ext_polar]. unfold ext_deg. rewrite El. destruct W as (N & _).
  rewrite <- app_assoc. cbn [app]. split; [rewrite app_length; cbn [length]; rewrite app_length; destruct (p_alpha p); [congruence|simpl; lia]|].
  split.
  - rewrite app_nth2 by lia. rewrite Nat.sub_diag. reflexivity.
  - rewrite app_nth2 by lia. replace (S (length l) - length l)%nat with 1%nat by lia. cbn [nth].
    destruct (p_alpha p); [congruence|reflexivity].
Qed.

(** * Lift and drag next to the data *)
Lemma viterna_formula_cl cm A a : 1 / 10000 <= a ->
  viterna_cl cm A 1 a = cm / 2 * sin (2 * a) + A * cos a ^ 2 / sin a.
Proof. intros H. unfold viterna_cl. cbv zeta. rewrite Rmax_left by exact H. ring. Qed.
Lemma viterna_formula_cd cm B a : 1 / 10000 <= a -> viterna_cd cm B a = cm * sin a ^ 2 + B * cos a.
Proof. intros H. unfold viterna_cd. cbv zeta. rewrite Rmax_left by exact H. reflexivity. Qed.

Lemma joins p cdmax AR : extendable p -> 1 / 10000 <= radians (final (p_alpha p)) -> final (p_alpha p) < 90 ->
  exists L D, continuity_pt L (final (p_alpha p)) /\ continuity_pt D (final (p_alpha p)) /\
    L (final (p_alpha p)) = final (p_cl p) /\ D (final (p_alpha p)) = final (p_cd p) /\
    forall cdmin n, 0 <= cdmin -> (2 <= n)%nat ->
    exists b k m near, extrapolate p cdmax AR cdmin n = Ok b /\ near <> [] /\
      Forall (fun a => final (p_alpha p) < a <= 90) near /\
      block_at (p_alpha b) k (p_alpha p ++ near) m /\
      block_at (p_cl b) k (p_cl p ++ map L near) m /\
      block_at (p_cd b) k (map (fun c => Rmax c cdmin) (p_cd p ++ map D near)) m.
Proof.
  intros X Ht H9. pose proof X as (W & Hlo & Hhi & _).
  set (h := radians (final (p_alpha p))) in *.
  assert (Hh : 0 < h < PI / 2).
  { split; [lra|]. rewrite <- radians_90. apply radians_mono. exact H9. }
  assert (Sh : 0 < sin h) by (apply sin_gt_0; lra).
  assert (Ch : 0 < cos h) by (apply cos_gt_0; lra).
  set (cm := cdm p cdmax AR).
  set (L := fun a => cm / 2 * sin (2 * radians a) + vA p cm * cos (radians a) ^ 2 / sin (radians a)).
  set (D := fun a => cm * sin (radians a) ^ 2 + vB p cm * cos (radians a)).
  exists L, D.
  assert (CL' : continuity_pt L (final (p_alpha p))).
  { unfold L, radians. reg. fold (radians (final (p_alpha p))). fold h. lra. }
  assert (CD' : continuity_pt D (final (p_alpha p))).
  { unfold D, radians. reg. }
  split; [exact CL'|]. split; [exact CD'|]. split.
  { unfold L, vA. cbv zeta. fold h. rewrite sin_2a. field. lra. }
  split.
  { unfold D, vB. cbv zeta. fold h. field. lra. }
  intros cdmin n Hmin Hn. destruct (extrapolate_full p cdmax AR cdmin n X Hmin) as (F1 & F2 & E & _).
  exists (ext_polar p cdmax AR cdmin n F1 F2), (length (before p n)), (length (seg2 p n ++ seg3 p n)),
    (map degrees (seg1 p n)).
  assert (B1 : forall x, In x (seg1 p n) -> h < x <= PI / 2) by (intros x; apply tlin_in; [exact Hn|lra]).
  split; [exact E|]. split.
  { pose proof (linspace_length h (PI / 2) n) as Ll. unfold seg1. fold h.
    destruct (linspace _ _ _) as [|x [|y l]]; simpl in Ll; [lia|lia|discriminate]. }
  split.
  { apply Forall_forall. intros a Ha. apply in_map_iff in Ha. destruct Ha as (x & <- & Hx). apply B1 in Hx.
    split; [rewrite <- (degrees_radians (final (p_alpha p))); apply degrees_mono; tauto|].
    replace 90 with (degrees (PI / 2)) by (unfold degrees; field; apply PI_neq0).
    destruct Hx as [_ [Hx| ->]]; [left; apply degrees_mono; exact Hx|lra]. }
  cbn [p_alpha p_cl p_cd ext_polar]. fold cm. unfold ext_deg, after, cl_after, cd_after. cbv zeta. fold h.
  split; [|split].
  - exists (map degrees (before p n)), (map degrees (seg2 p n ++ seg3 p n)).
    rewrite !map_app, <- !app_assoc, !map_length, !app_length, !map_length. auto.
  - match goal with |- context [cl_before p n cm ++ p_cl p ++ ?a ++ ?b ++ ?c] => exists (cl_before p n cm), (b ++ c) end.
    rewrite cl_before_length. rewrite !app_length, !map_length, <- !app_assoc. split; [|auto].
    f_equal. f_equal. f_equal. rewrite map_map. apply map_ext_in. intros a Ha. apply B1 in Ha.
    unfold L. rewrite radians_degrees. apply viterna_formula_cl. lra.
  - match goal with |- context [map ?f (cd_before p n cm) ++ map ?f (p_cd p) ++ map ?f (?a ++ ?b ++ ?c)] =>
      exists (map f (cd_before p n cm)), (map f (b ++ c)) end.
    rewrite !map_length, cd_before_length. rewrite !app_length, !map_length. split; [|auto].
    rewrite !map_app, <- !app_assoc. f_equal. f_equal. f_equal. rewrite !map_map. apply map_ext_in. intros a Ha. apply B1 in Ha.
    f_equal. unfold D. rewrite radians_degrees. apply viterna_formula_cd. lra.
Qed.

(** * The moment next to the data *)
Lemma app3 (l1 a l2 b m2 : list R) : a = b -> l2 = m2 -> l1 ++ a ++ l2 = l1 ++ b ++ m2.
Proof. intros -> ->. reflexivity. Qed.
Lemma app3' (l1 a l2 m1 b : list R) : l1 = m1 -> a = b -> l1 ++ a ++ l2 = m1 ++ b ++ l2.
Proof. intros -> ->. reflexivity. Qed.

Section Moment.
Variables (p : polar).
Hypothesis X : extendable p.
Notation a0 := (first (p_alpha p)).
Notation an := (final (p_alpha p)).
Notation L1 := (cm_alpha1 a0).
Notation L2 := (cm_alpha2 an).

Lemma a0_an : a0 <= an.
Proof. destruct X as (W & _). apply (in_first_final (p_alpha p) a0); [apply W|apply first_in, W]. Qed.

Lemma L1_facts : exists u, L1 = u ++ [ten_below a0 - 10; ten_below a0] /\
  Forall (fun y => y <= ten_below a0 - 10) u.
Proof.
  destruct X as (W & Hlo & _). destruct (alpha1_eq a0 Hlo) as (n & Hn & E & H10).
  pose proof (below_bounds a0) as B.
  assert (P : 0 < INR (n - 1)) by (apply lt_0_INR; lia).
  assert (St : (ten_below a0 - -180) / INR (n - 1) = 10).
  { apply Rmult_eq_reg_r with (INR (n - 1)); [|lra]. unfold Rdiv. rewrite Rmult_assoc, Rinv_l by lra. lra. }
  exists (map (fun k => -180 + INR k * 10) (seq 0 (n - 2))). rewrite E. unfold linspace. rewrite St.
  assert (Es : n = (n - 2 + 2)%nat) by lia. split.
  - rewrite Es at 1. rewrite seq_app, map_app. f_equal. cbn [seq map]. 
    rewrite (minus_INR n 1) in H10 by lia. simpl (INR 1) in H10. rewrite S_INR. rewrite !Nat.add_0_l, minus_INR by lia.
    simpl (INR 2). f_equal; [|f_equal]; lra.
  - apply Forall_forall. intros y Hy. apply in_map_iff in Hy. destruct Hy as (k & <- & Hk). apply in_seq in Hk.
    assert (INR k <= INR (n - 1) - 2).
    { rewrite minus_INR by lia. assert (INR k <= INR (n - 3)) by (apply le_INR; lia). rewrite minus_INR in H by lia.
      simpl (INR 1). simpl (INR 3) in H. lra. }
    lra.
Qed.

Lemma L2_facts : exists xs, L2 = ten_above an :: xs /\ xs <> [] /\ ten_above an < nth 0 xs 0 /\ length L2 = S (length xs).
Proof.
  destruct X as (W & _ & Hhi & _). destruct (alpha2_eq an Hhi) as (n & Hn & E). pose proof (above_bounds an) as B.
  assert (I : increasing L2) by (rewrite E; apply linspace_incr; [lia|lra]).
  pose proof (linspace_first (ten_above an) 180 n ltac:(lia)) as F. pose proof (linspace_length (ten_above an) 180 n) as Ll.
  rewrite <- E in F, Ll. destruct L2 as [|x xs]; [simpl in Ll; lia|]. unfold first in F. cbn [nth] in F. subst x.
  exists xs. split; [reflexivity|]. split; [intros ->; simpl in Ll; lia|]. split; [|reflexivity].
  apply (I 0%nat 1%nat). simpl in *. lia.
Qed.

Lemma split_last {A} (l : list A) d : l <> [] -> exists u, l = u ++ [last l d].
Proof. intros H. exists (removelast l). apply app_removelast_last. exact H. Qed.

Lemma alpha_split : exists u um, p_alpha p = u ++ [an] /\ p_cm p = um ++ [final (p_cm p)] /\ length u = length um /\
  Forall (fun y => y < an) u.
Proof.
  destruct X as ((N & I & _ & _ & L) & _).
  assert (Nm : p_cm p <> []) by (intros E; rewrite E in L; destruct (p_alpha p); [congruence|discriminate]).
  destruct (split_last (p_alpha p) 0 N) as [u Eu]. destruct (split_last (p_cm p) 0 Nm) as [um Em].
  rewrite last_final in Eu, Em. exists u, um. split; [exact Eu|]. split; [exact Em|]. split.
  - rewrite Eu, Em in L. rewrite !app_length in L. simpl in L. lia.
  - apply Forall_forall. intros y Hy. apply (In_nth _ _ 0) in Hy. destruct Hy as (i & Hi & <-).
    assert (Lu : length (p_alpha p) = S (length u)) by (rewrite Eu, app_length; simpl; lia).
    pose proof (I i (length u) ltac:(lia)) as H. rewrite Eu in H. rewrite app_nth1 in H by exact Hi.
    rewrite (app_nth2 u) in H by lia. rewrite Nat.sub_diag in H. exact H.
Qed.

Lemma L1_le : Forall (fun y => y <= a0) L1.
Proof.
  destruct L1_facts as (u & -> & F). pose proof (below_bounds a0). apply Forall_app. split.
  - eapply Forall_impl; [|exact F]. simpl. intros; lra.
  - constructor; [lra|constructor; [lra|constructor]].
Qed.

Lemma alpha_head : exists al m, p_alpha p = a0 :: al /\ p_cm p = first (p_cm p) :: m /\ length al = length m.
Proof.
  destruct X as ((N & _ & _ & _ & L) & _). destruct (p_alpha p) as [|a al]; [congruence|].
  destruct (p_cm p) as [|c m]; [discriminate|]. exists al, m. split; [reflexivity|]. split; [reflexivity|]. simpl in L. lia.
Qed.

Variables F1 F2 : list R.
Hypothesis LF1 : length F1 = length L1.
Hypothesis LF2 : length F2 = length L2.
Hypothesis Z2 : first L2 = an -> L2 <> [] -> first F2 = 0.
Hypothesis Z1 : final L1 = a0 -> L1 <> [] -> final F1 = 0.
Notation V := (fun x => interp x (L1 ++ p_alpha p ++ L2) (F1 ++ p_cm p ++ F2)).

(** At the upper end the table passes through the data point, or through zero when the angle is a multiple of ten. *)
Lemma upper_joins : ~ multiple_of_ten an -> exists c v, multiple_of_ten c /\ an < c <= an + 10 /\
  forall x, an <= x < c -> (V x - final (p_cm p)) * (c - an) = (v - final (p_cm p)) * (x - an).
Proof.
  intros Nm. destruct L2_facts as (xs & E2 & Nx & Hx & LL). pose proof (above_bounds an) as B.
  assert (S : an < ten_above an) by (apply above_strict; intros z Hz; apply Nm; exists z; exact Hz).
  assert (EF : exists v F2', F2 = v :: F2').
  { pose proof LF2 as Q. rewrite LL in Q. destruct F2; [discriminate|eexists _, _; reflexivity]. }
  destruct EF as (v & F2' & EF). exists (ten_above an), v. split.
  { exists (- Int_part (- (an / 10)))%Z. rewrite opp_IZR. unfold ten_above, rceil, rfloor. ring. }
  split; [lra|]. intros x Hxx. destruct alpha_split as (u & um & Eu & Em & Lu & Fu).
  assert (Ex : V x = seg an (final (p_cm p)) (ten_above an) v x).
  { cbv beta. rewrite (app3 L1 (p_alpha p) L2 _ _ Eu E2), (app3 F1 (p_cm p) F2 _ _ Em EF).
    replace (L1 ++ (u ++ [an]) ++ ten_above an :: xs) with ((L1 ++ u) ++ an :: ten_above an :: xs) by (rewrite <- !app_assoc; reflexivity).
    replace (F1 ++ (um ++ [final (p_cm p)]) ++ v :: F2') with ((F1 ++ um) ++ final (p_cm p) :: v :: F2') by (rewrite <- !app_assoc; reflexivity).
    apply interp_on_seg; [rewrite !app_length; lia| |lra].
    apply Forall_app. pose proof a0_an. split; [eapply Forall_impl; [|apply L1_le]; simpl; intros; lra|].
    eapply Forall_impl; [|exact Fu]. simpl. intros; lra. }
  cbv beta in Ex. rewrite Ex. apply seg_value. exact S.
Qed.

Lemma upper_lost : multiple_of_ten an -> V an = 0.
Proof.
  intros [z Hz]. destruct L2_facts as (xs & E2 & Nx & Hx & LL).
  assert (Ea : ten_above an = an) by (rewrite Hz; apply above_mult).
  assert (EF : exists v F2', F2 = v :: F2').
  { pose proof LF2 as Q. rewrite LL in Q. destruct F2; [discriminate|eexists _, _; reflexivity]. }
  destruct EF as (v & F2' & EF).
  assert (v = 0).
  { pose proof Z2 as Q. rewrite EF in Q. apply Q; [rewrite E2; unfold first at 1; exact Ea|rewrite E2; discriminate]. }
  subst v. pose proof LF2 as LQ. rewrite LL, EF in LQ. rewrite Ea in E2, Hx. destruct X as (W & _). cbv beta.
  rewrite (app3 L1 (p_alpha p) L2 _ _ eq_refl E2), (app3 F1 (p_cm p) F2 _ _ eq_refl EF).
  rewrite !app_assoc. apply interp_at_node.
  - rewrite !app_length. destruct W as (_ & _ & _ & _ & L). lia.
  - apply Forall_app. pose proof a0_an. split; [eapply Forall_impl; [|apply L1_le]; simpl; intros; lra|].
    apply Forall_forall. intros y Hy. apply in_first_final; [apply W|exact Hy].
  - right. exact Hx.
  - simpl in LQ. lia.
Qed.

(** At the lower end. *)
Lemma lower_split : exists u f1 f2, L1 = u ++ [ten_below a0 - 10; ten_below a0] /\ exists fu, F1 = fu ++ [f1; f2] /\
  length u = length fu /\ Forall (fun y => y <= ten_below a0 - 10) u.
Proof.
  destruct L1_facts as (u & E & F). pose proof LF1 as L. rewrite E, app_length in L. simpl in L.
  assert (N : F1 <> []) by (intros E'; rewrite E' in L; simpl in L; lia).
  destruct (split_last F1 0 N) as [g Eg]. rewrite Eg in L. rewrite app_length in L. simpl in L.
  assert (N' : g <> []) by (intros E'; rewrite E' in L; simpl in L; lia).
  destruct (split_last g 0 N') as [fu Ef].
  exists u, (last g 0), (last F1 0). split; [exact E|]. exists fu. split; [|split; [|exact F]].
  - rewrite Eg at 1. rewrite Ef at 1. rewrite <- app_assoc. reflexivity.
  - rewrite Ef, app_length in L. simpl in L. lia.
Qed.

Lemma lower_joins : ~ multiple_of_ten a0 -> exists c v, multiple_of_ten c /\ a0 - 10 <= c < a0 /\
  forall x, c <= x < a0 -> (first (p_cm p) - V x) * (a0 - c) = (first (p_cm p) - v) * (a0 - x).
Proof.
  intros Nm. destruct lower_split as (u & f1 & f2 & E1 & fu & Ef & Lu & Fu). pose proof (below_bounds a0) as B.
  assert (S : ten_below a0 < a0) by (apply below_strict; intros z Hz; apply Nm; exists z; exact Hz).
  exists (ten_below a0), f2. split; [exists (Int_part (a0 / 10)); unfold ten_below, rfloor; ring|].
  split; [lra|]. intros x Hx. destruct alpha_head as (al & m & Ea & Em & _).
  assert (Ex : V x = seg (ten_below a0) f2 a0 (first (p_cm p)) x).
  { cbv beta. rewrite (app3' L1 (p_alpha p) L2 _ _ E1 Ea), (app3' F1 (p_cm p) F2 _ _ Ef Em).
    replace ((u ++ [ten_below a0 - 10; ten_below a0]) ++ (a0 :: al) ++ L2) with
      ((u ++ [ten_below a0 - 10]) ++ ten_below a0 :: a0 :: (al ++ L2)) by (rewrite <- !app_assoc; reflexivity).
    replace ((fu ++ [f1; f2]) ++ (first (p_cm p) :: m) ++ F2) with
      ((fu ++ [f1]) ++ f2 :: first (p_cm p) :: (m ++ F2)) by (rewrite <- !app_assoc; reflexivity).
    apply interp_on_seg; [rewrite !app_length; simpl; lia| |lra].
    apply Forall_app. split; [eapply Forall_impl; [|exact Fu]; simpl; intros; lra|]. repeat constructor. lra. }
  cbv beta in Ex. rewrite Ex. pose proof (seg_value (ten_below a0) f2 a0 (first (p_cm p)) x S) as Q. lra.
Qed.

Lemma lower_lost : multiple_of_ten a0 -> exists v, forall x, a0 - 10 <= x < a0 -> V x * 10 = v * (a0 - x).
Proof.
  intros [z Hz]. destruct lower_split as (u & f1 & f2 & E1 & fu & Ef & Lu & Fu).
  assert (Eb : ten_below a0 = a0).
  { rewrite Hz. unfold ten_below, rfloor. replace (10 * IZR z / 10) with (IZR z) by field. rewrite int_IZR. ring. }
  assert (f2 = 0).
  { assert (final F1 = 0) as Q.
    { apply Z1; rewrite E1; [|intros E; apply app_eq_nil in E; destruct E; discriminate].
      rewrite final_app by discriminate. exact Eb. }
    rewrite Ef in Q. rewrite final_app in Q by discriminate. exact Q. }
  subst f2. exists f1. intros x Hx.
  assert (Ex : V x = seg (a0 - 10) f1 a0 0 x).
  { rewrite Eb in E1, Fu. cbv beta. rewrite (app3' L1 (p_alpha p) L2 _ _ E1 eq_refl), (app3' F1 (p_cm p) F2 _ _ Ef eq_refl). rewrite <- !app_assoc. cbn [app]. apply interp_on_seg; [exact Lu| |lra].
    eapply Forall_impl; [|exact Fu]. simpl. intros; lra. }
  cbv beta in Ex. rewrite Ex. pose proof (seg_value (a0 - 10) f1 a0 0 x ltac:(lra)) as Q. lra.
Qed.

(** Inside the data the table is the data. *)
Lemma inside_data i : (i < length (p_alpha p))%nat -> (~ multiple_of_ten an \/ (S i < length (p_alpha p))%nat) ->
  V (nth i (p_alpha p) 0) = nth i (p_cm p) 0.
Proof.
  intros Hi Hm. destruct X as (W & _). destruct W as (N & I & _ & _ & L).
  destruct (nth_split (p_alpha p) 0 Hi) as (u & v & Eu & Lu).
  assert (Hi' : (i < length (p_cm p))%nat) by lia.
  destruct (nth_split (p_cm p) 0 Hi') as (um & vm & Em & Lm).
  destruct L2_facts as (xs & E2 & Nx & Hx & LL).
  set (x := nth i (p_alpha p) 0) in *. set (y := nth i (p_cm p) 0) in *. cbv beta.
  assert (Hin : In x (p_alpha p)) by (apply nth_In; exact Hi).
  pose proof (in_first_final _ _ I Hin) as Hb.
  rewrite (app3 L1 (p_alpha p) L2 _ _ Eu eq_refl), (app3 F1 (p_cm p) F2 _ _ Em eq_refl).
  replace (L1 ++ (u ++ x :: v) ++ L2) with ((L1 ++ u) ++ x :: (v ++ L2)) by (rewrite <- !app_assoc; reflexivity).
  replace (F1 ++ (um ++ y :: vm) ++ F2) with ((F1 ++ um) ++ y :: (vm ++ F2)) by (rewrite <- !app_assoc; reflexivity).
  apply interp_at_node.
  - rewrite !app_length. lia.
  - apply Forall_app. split; [eapply Forall_impl; [|apply L1_le]; simpl; intros; lra|].
    apply Forall_forall. intros w Hw. apply (In_nth _ _ 0) in Hw. destruct Hw as (j & Hj & <-).
    pose proof (I j i ltac:(lia)) as Q. rewrite Eu in Q at 1. rewrite app_nth1 in Q by exact Hj. fold x in Q. lra.
  - right. assert (Lv : length (p_alpha p) = (length u + S (length v))%nat) by (rewrite Eu, app_length; reflexivity).
    destruct v as [|w v'].
    + cbn [app]. rewrite E2. cbn [nth]. simpl in Lv. destruct Hm as [Hm|Hm]; [|lia].
      assert (an < ten_above an) by (apply above_strict; intros z Hz; apply Hm; exists z; exact Hz). lra.
    + cbn [app nth]. simpl in Lv. pose proof (I i (S i) ltac:(lia)) as Q. fold x in Q.
      rewrite Eu in Q. rewrite app_nth2 in Q by lia. replace (S i - length u)%nat with 1%nat in Q by lia. exact Q.
  - rewrite !app_length. assert (length v = length vm); [|lia].
    rewrite Eu, Em in L. rewrite !app_length in L. simpl in L. lia.
Qed.
End Moment.

Lemma moment p cdmax AR cdmin n : extendable p -> 0 <= cdmin ->
  exists b k m, extrapolate p cdmax AR cdmin n = Ok b /\
    block_at (p_alpha b) k (p_alpha p) m /\ length (p_cm b) = length (p_alpha b) /\
    (~ multiple_of_ten (final (p_alpha p)) ->
       block_at (p_cm b) k (p_cm p) m /\
       exists c v, multiple_of_ten c /\ final (p_alpha p) < c <= final (p_alpha p) + 10 /\
       forall i, (i < length (p_alpha b))%nat -> final (p_alpha p) <= nth i (p_alpha b) 0 < c ->
         (nth i (p_cm b) 0 - final (p_cm p)) * (c - final (p_alpha p)) =
         (v - final (p_cm p)) * (nth i (p_alpha b) 0 - final (p_alpha p))) /\
    (~ multiple_of_ten (first (p_alpha p)) ->
       exists c v, multiple_of_ten c /\ first (p_alpha p) - 10 <= c < first (p_alpha p) /\
       forall i, (i < length (p_alpha b))%nat -> c <= nth i (p_alpha b) 0 < first (p_alpha p) ->
         (first (p_cm p) - nth i (p_cm b) 0) * (first (p_alpha p) - c) =
         (first (p_cm p) - v) * (first (p_alpha p) - nth i (p_alpha b) 0)).
Proof.
  intros X Hmin. destruct (extrapolate_full p cdmax AR cdmin n X Hmin) as (F1 & F2 & E & LF1 & LF2 & Z2 & Z1).
  exists (ext_polar p cdmax AR cdmin n F1 F2), (length (before p n)), (length (after p n)).
  split; [exact E|]. cbn [p_alpha p_cm ext_polar].
  assert (B : block_at (ext_deg p n) (length (before p n)) (p_alpha p) (length (after p n))).
  { eexists _, _; split; [reflexivity|rewrite !map_length; auto]. }
  split; [exact B|]. split; [apply map_length|]. split.
  - intros Hm. split.
    + set (V := fun x => interp x _ _).
      assert (EV : map V (p_alpha p) = p_cm p).
      2: { exists (map V (map degrees (before p n))), (map V (map degrees (after p n))).
           unfold ext_deg. rewrite !map_app, EV, !map_length. auto. }
      assert (L : length (p_alpha p) = length (p_cm p)) by (symmetry; apply X).
      apply (nth_ext _ _ 0 0); [rewrite map_length; exact L|]. intros i Hi. rewrite map_length in Hi.
      rewrite (nth_map_lt _ _ _ 0) by exact Hi. apply (inside_data p X F1 F2 LF1 LF2 i Hi). left; exact Hm.
    + destruct (upper_joins p X F1 F2 LF1 LF2 Z2 Hm) as (c & v & Hc & Hb & H). exists c, v. split; [exact Hc|]. split; [exact Hb|].
      intros i Hi Hx. rewrite (nth_map_lt _ _ _ 0) by exact Hi. apply H. exact Hx.
  - intros Hm. destruct (lower_joins p X F1 F2 LF1 LF2 Hm) as (c & v & Hc & Hb & H). exists c, v. split; [exact Hc|]. split; [exact Hb|].
    intros i Hi Hx. rewrite (nth_map_lt _ _ _ 0) by exact Hi. apply H. exact Hx.
Qed.

Lemma moment_lost p cdmax AR cdmin n : extendable p -> 0 <= cdmin ->
  exists b, extrapolate p cdmax AR cdmin n = Ok b /\ In (final (p_alpha p)) (p_alpha b) /\
    (multiple_of_ten (final (p_alpha p)) ->
       forall i, (i < length (p_alpha b))%nat -> nth i (p_alpha b) 0 = final (p_alpha p) -> nth i (p_cm b) 0 = 0) /\
    (multiple_of_ten (first (p_alpha p)) -> exists v,
       forall i, (i < length (p_alpha b))%nat -> first (p_alpha p) - 10 <= nth i (p_alpha b) 0 < first (p_alpha p) ->
         nth i (p_cm b) 0 * 10 = v * (first (p_alpha p) - nth i (p_alpha b) 0)).
Proof.
  intros X Hmin. destruct (extrapolate_full p cdmax AR cdmin n X Hmin) as (F1 & F2 & E & LF1 & LF2 & Z2 & Z1).
  exists (ext_polar p cdmax AR cdmin n F1 F2). split; [exact E|]. cbn [p_alpha p_cm ext_polar].
  split. { unfold ext_deg. apply in_or_app. right. apply in_or_app. left. apply final_in. apply X. }
  split.
  - intros Hm i Hi Hx. rewrite (nth_map_lt _ _ _ 0) by exact Hi. rewrite Hx. apply (upper_lost p X F1 F2 LF1 LF2 Z2 Hm).
  - intros Hm. destruct (lower_lost p X F1 F2 LF1 LF2 Z1 Hm) as [v H]. exists v. intros i Hi Hx.
    rewrite (nth_map_lt _ _ _ 0) by exact Hi. apply H. exact Hx.
Qed.

(** * correction3D *)
Section Corr.
Variable polyfit : list R -> list R -> res (R * R).

Lemma map2_nth (f : R -> R -> R) a : forall b i, (i < length a)%nat -> length a = length b ->
  nth i (map2 f a b) 0 = f (nth i a 0) (nth i b 0).
Proof.
  unfold map2. induction a as [|x a IH]; intros [|y b] i Hi H; simpl in *; try lia.
  destruct i as [|i]; [reflexivity|]. apply IH; lia.
Qed.

Lemma correction p rR cr tsr amc almin almax m c : wf_polar p -> tsr <> 0 -> rR <> 0 ->
  polyfit (map fst (linear_rows p almin almax)) (map snd (linear_rows p almin almax)) = Ok (m, c) -> m <> 0 ->
  exists b, correction3D polyfit p rR cr tsr amc almin almax = Ok b /\
    p_Re b = p_Re p /\ p_alpha b = p_alpha p /\ p_cm b = p_cm p /\
    length (p_cl b) = length (p_alpha p) /\ length (p_cd b) = length (p_alpha p) /\
    exists f fd,
      (let x := Rpower cr (sqrt (1 + tsr ^ 2) / (tsr * rR)) in
       m * f = 16 / 10 * cr / (1267 / 10000) * ((1 - x) / (1 + x)) - 1) /\
      (let x := Rpower cr (sqrt (1 + tsr ^ 2) / (tsr * rR) / 2) in
       m * fd = 16 / 10 * cr / (1267 / 10000) * ((1 - x) / (1 + x)) - 1) /\
    forall i, (i < length (p_alpha p))%nat ->
      let line := m * radians (nth i (p_alpha p) 0) + c in
      let cl := nth i (p_cl p) 0 in
      let cd := nth i (p_cd p) 0 in
      (cl = line -> nth i (p_cl b) 0 = cl) /\
      (nth i (p_alpha p) 0 <= amc -> nth i (p_cl b) 0 = cl + f * (line - cl)) /\
      (amc < nth i (p_alpha p) 0 -> amc < 90 ->
         nth i (p_cl b) 0 = cl + f * (line - cl) * ((90 - nth i (p_alpha p) 0) / (90 - amc)) ^ 2) /\
      (nth i (p_alpha p) 0 = 90 -> amc < 90 -> nth i (p_cl b) 0 = cl) /\
      (nth i (p_alpha p) 0 = 0 -> nth i (p_cd b) 0 = cd) /\
      (forall cd0, value CD p 0 cd0 -> nth i (p_cd b) 0 = cd + fd * (cd - cd0)).
Proof.
  intros W Ht Hr Ef Hm. unfold correction3D.
  replace (reqb tsr 0) with false by (symmetry; apply reqb_false; exact Ht).
  replace (reqb rR 0) with false by (symmetry; apply reqb_false; exact Hr). cbv zeta.
  fold (linear_rows p almin almax). rewrite Ef. cbn [bind fst snd].
  pose proof W as (N & I & L1 & L2 & L3).
  assert (Ir : increasing (map radians (p_alpha p))) by (apply incr_map; [apply radians_mono|exact I]).
  rewrite np_interp_ok; [|destruct (p_alpha p); [congruence|discriminate]|rewrite map_length; symmetry; exact L2].
  cbn [bind map nth]. eexists. split; [reflexivity|]. cbn [p_Re p_alpha p_cl p_cd p_cm].
  split; [reflexivity|]. split.
  { rewrite map_map. rewrite <- (map_id (p_alpha p)) at 2. apply map_ext, degrees_radians. }
  split; [reflexivity|]. split.
  { unfold map2. rewrite map_length, combine_length, map_length. lia. }
  split; [rewrite map_length; exact L2|].
  set (e := 1 / (tsr / sqrt (1 + tsr ^ 2)) / rR).
  assert (Sq : 0 < sqrt (1 + tsr ^ 2)) by (apply sqrt_lt_R0; pose proof (pow2_ge_0 tsr); lra).
  assert (Ee : e = sqrt (1 + tsr ^ 2) / (tsr * rR)) by (unfold e; field; repeat split; auto; lra).
  exists (selig m cr e), (selig m cr (e / 2)).
  assert (Px : forall y, 0 < Rpower cr y) by (intros; unfold Rpower; apply exp_pos).
  split. { cbv zeta. rewrite Ee. unfold selig. set (y := Rpower cr _). assert (0 < y) by apply Px. field. lra. }
  split. { cbv zeta. rewrite Ee. unfold selig. set (y := Rpower cr _). assert (0 < y) by apply Px. field. lra. }
  intros i Hi. cbv zeta. fold e. set (a := nth i (p_alpha p) 0).
  rewrite map2_nth by (rewrite map_length; lia). rewrite !(nth_map_lt _ _ _ 0) by lia. fold a.
  set (cl := nth i (p_cl p) 0). set (cd := nth i (p_cd p) 0).
  replace (m * (radians a - - c / m)) with (m * radians a + c) by (field; exact Hm).
  assert (A1 : a <= amc -> adj (radians amc) (radians a) = 1).
  { intros H. unfold adj. replace (rleb _ _) with true; [reflexivity|]. symmetry. apply rleb_true, radians_le, H. }
  assert (A2 : amc < a -> amc < 90 -> adj (radians amc) (radians a) = ((90 - a) / (90 - amc)) ^ 2).
  { intros H H9. unfold adj. replace (rleb _ _) with false by (symmetry; apply rleb_false, radians_mono, H).
    unfold radians. f_equal. pose proof PI_neq0. field. split; [lra|]. intros Q.
    replace (PI * 180 - amc * PI * 2) with (PI * (2 * (90 - amc))) in Q by ring. apply Rmult_integral in Q. destruct Q; lra. }
  assert (C0 : forall cd0, value CD p 0 cd0 -> cd0 = interp 0 (map radians (p_alpha p)) (p_cd p)).
  { intros cd0 V. apply (polygon_unique (map radians (p_alpha p)) (p_cd p) 0).
    - exact Ir.
    - destruct (p_alpha p); [congruence|discriminate].
    - destruct V as (V1 & V2 & V3). cbn [col] in *. assert (Lp : (0 < length (p_alpha p))%nat) by lia.
      unfold polygon_value. rewrite map_length. rewrite !(nth_map_lt _ _ _ 0) by lia.
      assert (R0 : forall y, 0 <= radians y -> 0 <= y).
      { intros y Hy. destruct (Rle_lt_dec 0 y) as [|K]; [assumption|]. apply radians_mono in K. unfold radians in K, Hy. lra. }
      assert (R1 : forall y, radians y <= 0 -> y <= 0).
      { intros y Hy. destruct (Rle_lt_dec y 0) as [|K]; [assumption|]. apply radians_mono in K. unfold radians in K, Hy. lra. }
      split; [intros H; apply V1, R0, H|]. split; [intros H; apply V2, R1, H|].
      intros j Hj [K1 K2]. rewrite (nth_map_lt _ _ _ 0) in K1 by lia. rewrite (nth_map_lt _ _ _ 0) in K2 by lia. rewrite !(nth_map_lt _ _ _ 0) by lia.
      specialize (V3 j Hj (conj (R1 _ K1) (R0 _ K2))). unfold radians.
      transitivity ((cd0 - nth j (p_cd p) 0) * (nth (S j) (p_alpha p) 0 - nth j (p_alpha p) 0) * (PI / 180)); [ring|].
      rewrite V3. ring.
    - apply interp_polygon; [exact Ir|rewrite map_length; symmetry; exact L2|destruct (p_alpha p); [congruence|discriminate]]. }
  split; [intros E; rewrite <- E; ring|].
  split; [intros H; rewrite A1 by exact H; ring|].
  split; [intros H H9; rewrite A2 by assumption; reflexivity|].
  split.
  { intros H H9. rewrite A2 by lra. rewrite H. replace ((90 - 90) / (90 - amc)) with 0 by (field; lra). ring. }
  split.
  { intros H. assert (V : value CD p 0 cd).
    { pose proof (value_ival CD p a W) as Q. unfold a in Q at 2. rewrite ival_node in Q by (exact W || exact Hi).
      rewrite H in Q. exact Q. }
    rewrite <- (C0 _ V). ring. }
  intros cd0 V. rewrite (C0 _ V). reflexivity.
Qed.
End Corr.

(** * Examples *)
Definition ex_e : polar := mkPolar 1000000 [-4; 0; 12] [-1/2; 0; 1] [1/100; 1/100; 4/100] [1/50; 0; -1/25].
Definition ex_t : polar := mkPolar 1000000 [-4; 0; 10] [-1/2; 0; 1] [1/100; 1/100; 4/100] [1/50; 0; -1/25].
Definition ex_y : polar := mkPolar 1000000 [-12; 0; 12] [-1; 0; 1] [1/100; 1/100; 4/100] [1/50; 0; -1/25].

Ltac ext_lit := unfold extendable, wf_polar, first, final; cbn [p_alpha p_cl p_cd p_cm length nth];
  split; [split; [discriminate|split; [incr_lit|auto]]|split; [cbn; lra|split; [cbn; lra|right; lia]]].
Lemma ex_e_ok : extendable ex_e. Proof. unfold ex_e. ext_lit. Qed.
Lemma ex_t_ok : extendable ex_t. Proof. unfold ex_t. ext_lit. Qed.
Lemma ex_y_ok : extendable ex_y. Proof. unfold ex_y. ext_lit. Qed.

Lemma not_ten_12 : ~ multiple_of_ten 12.
Proof.
  intros [z H]. assert (E : 12 = IZR (10 * z)) by (rewrite mult_IZR; exact H). apply eq_IZR in E. lia.
Qed.
Lemma not_ten_m4 : ~ multiple_of_ten (-4).
Proof.
  intros [z H]. assert (E : -4 = IZR (10 * z)) by (rewrite mult_IZR; exact H). apply eq_IZR in E. lia.
Qed.

Lemma airfoil_ext af cdmax AR cdmin : af <> [] -> sorted_by_Re af -> Forall extendable af -> 0 <= cdmin ->
  exists af', airfoil_extrapolate af cdmax AR cdmin = Ok af' /\
    Forall2 (fun p b => extrapolate p cdmax AR cdmin 15 = Ok b) af af'.
Proof.
  intros Hne Hs X Hmin. unfold airfoil_extrapolate.
  destruct (mapM_ok (fun p => extrapolate p cdmax AR cdmin 15) (fun p b => p_Re b = p_Re p) af) as (ys & E & F).
  - intros p Hp. rewrite Forall_forall in X.
    destruct (structure p cdmax AR cdmin 15 (X p Hp) Hmin ltac:(lia)) as (b & _ & _ & Eb & ER & _). exists b. auto.
  - rewrite E. cbn [bind]. assert (ER : map p_Re ys = map p_Re af).
    { clear - F. induction F as [|p b l m [_ H] F IH]; [reflexivity|]. cbn [map]. rewrite H, IH. reflexivity. }
    exists ys. split.
    + rewrite mk_airfoil_ok by (destruct ys; [destruct af; [congruence|discriminate]|discriminate]).
      f_equal. apply psort_id. unfold sorted_by_Re in *. rewrite ER. exact Hs.
    + eapply F2_impl; [|exact F]. simpl. tauto.
Qed.
