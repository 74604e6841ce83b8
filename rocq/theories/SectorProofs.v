(** Azimuthal sectors, station independence, power and coefficients (C08, C22, C27-C29). *)
From Coq Require Import Reals Bool Arith List Lra Lia.
From Verif Require Import Prelim Num Bem BemGeomProofs Interp Blade BladeSpec FlProofs StationProofs BladeProofs.
Import ListNotations.
Open Scope R_scope.

Lemma Forall2_len {X Y} (P : X -> Y -> Prop) l l' : Forall2 P l l' -> length l = length l'.
Proof. induction 1; simpl; congruence. Qed.

Lemma station_wind npi bq b p Om (V V' : arr * arr) i : fst V i = fst V' i -> snd V i = snd V' i ->
  station_i npi bq b p Om V i = station_i npi bq b p Om V' i.
Proof. intros H1 H2. unfold station_i. rewrite H1, H2. reflexivity. Qed.

(** C08 *)
Lemma loads_axisymmetric : forall npi bq b U Om p az az', axisymmetric b ->
  distributedAeroLoads npi bq b U Om p az = distributedAeroLoads npi bq b U Om p az'.
Proof.
  intros npi bq b U Om p az az' (Ht & Hy & Hs). unfold distributedAeroLoads.
  destruct (negb (shapes_ok b)); [reflexivity|]. cbv zeta.
  rewrite (mapM_ext (station_i npi bq b (radians p) Om (wind b U Om (radians az)))
                    (station_i npi bq b (radians p) Om (wind b U Om (radians az')))); [reflexivity|].
  intros i _. unfold wind. rewrite Ht, Hy, Hs.
  match goal with |- station_i _ _ _ _ _ (windComponents ?n ?r ?c ?w ?pc 0 0 ?a ?U ?Om ?h 0) _ = _ =>
    pose proof (axisym n r c w pc (radians az) (radians az') U Om h h) as A;
    destruct (windComponents n r c w pc 0 0 (radians az) U Om h 0) as [Vx Vy] eqn:E1;
    destruct (windComponents n r c w pc 0 0 (radians az') U Om h 0) as [Vx' Vy'] eqn:E2;
    destruct (A Vx Vy Vx' Vy' i eq_refl eq_refl) as [A1 A2]
  end. apply station_wind; assumption.
Qed.

(** C22: a station depends on no other station's chord, twist or airfoil. *)
Lemma station_independent : forall npi bq b chord theta af U Om p az b1 ls1 b2 ls2 i,
  b_inverse b = false ->
  nth_error chord i = nth_error (b_chord b) i -> nth_error theta i = nth_error (b_theta b) i ->
  nth_error af i = nth_error (b_af b) i ->
  distributedAeroLoads npi bq b U Om p az = Ok (b1, ls1) ->
  distributedAeroLoads npi bq (with_sections b chord theta af) U Om p az = Ok (b2, ls2) ->
  nth_error ls1 i = nth_error ls2 i.
Proof.
  intros npi bq b chord theta af U Om p az b1 ls1 b2 ls2 i Hi Hc Ht Ha H1 H2.
  assert (G : forall b b1 ls1, distributedAeroLoads npi bq b U Om p az = Ok (b1, ls1) ->
    exists out, mapM (station_i npi bq b (radians p) Om (wind b U Om (radians az))) (seq 0 (length (b_r b))) = Ok out /\
                ls1 = map snd out).
  { clear. intros b b1 ls1 H. unfold distributedAeroLoads in H. destruct (negb (shapes_ok b)); [discriminate|].
    apply bind_ok in H. destruct H as (out & H & E). exists out. split; [exact H|].
    apply ok_inj in E. apply (f_equal snd) in E. exact (eq_sym E). }
  destruct (G _ _ _ H1) as (o1 & M1 & ->). destruct (G _ _ _ H2) as (o2 & M2 & ->). clear G H1 H2.
  change (b_r (with_sections b chord theta af)) with (b_r b) in M2.
  change (wind (with_sections b chord theta af)) with (wind b) in M2.
  set (V := wind b U Om (radians az)) in *.
  assert (ES : station_i npi bq (with_sections b chord theta af) (radians p) Om V i = station_i npi bq b (radians p) Om V i).
  { unfold station_i. change (b_inverse (with_sections b chord theta af)) with (b_inverse b). rewrite Hi.
    unfold pyget. cbn [with_sections b_r b_chord b_theta b_af]. rewrite Hc, Ht, Ha. reflexivity. }
  apply mapM_ok in M1, M2.
  assert (L1 := Forall2_len _ _ _ M1). assert (L2 := Forall2_len _ _ _ M2).
  rewrite !nth_error_map.
  destruct (nth_error o1 i) as [x1|] eqn:E1; destruct (nth_error o2 i) as [x2|] eqn:E2; cbn [option_map].
  - destruct (Forall2_nth_error _ _ _ _ _ M1 E1) as (j1 & J1 & S1).
    destruct (Forall2_nth_error _ _ _ _ _ M2 E2) as (j2 & J2 & S2).
    assert (Hlt : (i < length (b_r b))%nat).
    { rewrite <- (seq_length (length (b_r b)) 0). apply nth_error_Some. rewrite J1. discriminate. }
    apply (nth_error_nth _ _ 0%nat) in J1. apply (nth_error_nth _ _ 0%nat) in J2.
    rewrite seq_nth in J1, J2 by assumption. cbn in J1, J2. subst j1 j2. rewrite ES, S1 in S2.
    apply ok_inj in S2. subst. reflexivity.
  - apply nth_error_None in E2. assert (i < length o1)%nat by (apply nth_error_Some; rewrite E1; discriminate). lia.
  - apply nth_error_None in E1. assert (i < length o2)%nat by (apply nth_error_Some; rewrite E2; discriminate). lia.
  - reflexivity.
Qed.

(** ** Sums over sectors *)
Fixpoint sumf (f : R -> R) (l : list R) : R := match l with [] => 0 | x :: l' => f x + sumf f l' end.

Lemma sumf_app f l1 l2 : sumf f (l1 ++ l2) = sumf f l1 + sumf f l2.
Proof. induction l1; simpl; [ring|]. rewrite IHl1. ring. Qed.

Lemma sector_sum h n : let azs := map (fun k => INR k * h) (seq 0 n) in
  2 * sin (h / 2) * sumf cos azs = sin ((INR n - 1 / 2) * h) + sin (h / 2) /\
  2 * sin (h / 2) * sumf sin azs = cos (h / 2) - cos ((INR n - 1 / 2) * h).
Proof.
  cbv zeta. induction n as [|n [IH1 IH2]].
  - simpl. replace ((0 - 1 / 2) * h) with (- (h / 2)) by field. rewrite sin_neg, cos_neg. split; ring.
  - rewrite seq_S, map_app, !sumf_app, S_INR. simpl sumf. replace (0 + n)%nat with n by lia.
    set (x := INR n * h) in *.
    replace ((INR n - 1 / 2) * h) with (x - h / 2) in IH1, IH2 by (unfold x; field).
    replace ((INR n + 1 - 1 / 2) * h) with (x + h / 2) by (unfold x; field).
    rewrite sin_plus, cos_plus. rewrite sin_minus in IH1. rewrite cos_minus in IH2. split; lra.
Qed.

Lemma sector_balance n : (2 <= n)%nat -> sumf cos (azimuths n) = 0 /\ sumf sin (azimuths n) = 0.
Proof.
  intros Hn. unfold azimuths. set (h := 2 * PI / INR n).
  assert (HN : 2 <= INR n) by (change 2 with (INR 2); apply le_INR; assumption).
  pose proof PI_RGT_0 as HP.
  assert (Hh : INR n * h = 2 * PI) by (unfold h; field; lra).
  assert (Hs : 0 < sin (h / 2)).
  { assert (h / 2 = PI / INR n) by (unfold h; field; lra).
    assert (0 < PI / INR n < PI).
    { split; [apply Rdiv_lt_0_compat; lra|]. apply Rmult_lt_reg_r with (INR n); [lra|].
      replace (PI / INR n * INR n) with PI by (field; lra). nra. }
    apply sin_gt_0; lra. }
  destruct (sector_sum h n) as [S1 S2].
  replace ((INR n - 1 / 2) * h) with (- (h / 2) + 2 * INR 1 * PI) in S1, S2 by (simpl INR; lra).
  rewrite sin_period in S1. rewrite cos_period in S2. rewrite sin_neg in S1. rewrite cos_neg in S2.
  split; nra.
Qed.

Lemma sector_one : sumf cos (azimuths 1) = 1 /\ sumf sin (azimuths 1) = 0.
Proof. unfold azimuths. simpl. rewrite Rmult_0_l, cos_0, sin_0. split; ring. Qed.

Lemma azimuths_length n : length (azimuths n) = n.
Proof. unfold azimuths. rewrite map_length, seq_length. reflexivity. Qed.

(** Rotor totals from equal loads at every azimuth, C and S the sums of the cosines and sines. *)
Definition sector_totals (b : blade) (Np Tp : list R) (N C S : R) : totals :=
  let B := INR (b_B b) in
  let nsec := INR (b_nSector b) in
  let '(Tsub, Ysub, Zsub, Qsub, Msub) :=
    thrustTorque (length (b_r b)) (aget Np) (aget Tp) (aget (b_r b)) (aget (b_precurve b))
      (aget (b_presweep b)) (b_precone b) (b_Rhub b) (b_Rtip b) (b_precurveTip b) (b_presweepTip b) in
  mkTot (N * (B * Tsub / nsec)) (B * (Ysub * C - Zsub * S) / nsec) (B * (Zsub * C + Ysub * S) / nsec)
        (N * (B * Qsub / nsec)) (B * Msub * C / nsec) (B * Msub * S / nsec) (N * (Msub / nsec)).

Definition tot_plus (t u : totals) : totals :=
  mkTot (t_T t + t_T u) (t_Y t + t_Y u) (t_Z t + t_Z u) (t_Q t + t_Q u) (t_My t + t_My u) (t_Mz t + t_Mz u) (t_Mb t + t_Mb u).

Lemma tot_add_step b az Np Tp t N C S :
  tot_plus (tot_add b az Np Tp t) (sector_totals b Np Tp N C S) =
  tot_plus t (sector_totals b Np Tp (N + 1) (cos az + C) (sin az + S)).
Proof.
  unfold tot_plus, tot_add, sector_totals.
  destruct (thrustTorque _ _ _ _ _ _ _ _ _ _ _) as [[[[Ts Ys] Zs] Qs] Ms].
  cbn [t_T t_Y t_Z t_Q t_My t_Mz t_Mb]. unfold Rdiv. f_equal; ring.
Qed.

Lemma azimuth_axisymmetric npi bq azs : forall b q U Om p acc W b' ls, axisymmetric b -> b_inverse b = false ->
  distributedAeroLoads npi bq b U Om p 0 = Ok (b', ls) -> azs <> [] ->
  azimuth_loop npi bq azs (repitch b q) U Om p acc W =
  Ok (b', match acc, fvals (map o_Np ls), fvals (map o_Tp ls) with
          | Some t, Some Np, Some Tp =>
              Some (tot_plus t (sector_totals b Np Tp (INR (length azs)) (sumf cos azs) (sumf sin azs)))
          | _, _, _ => None end, Some (map o_W ls)).
Proof.
  induction azs as [|az azs IH]; intros b q U Om p acc W b' ls Hax Hi H Hne; [destruct Hne; reflexivity|].
  cbn [azimuth_loop]. rewrite dal_repitch, (loads_axisymmetric npi bq b U Om p (degrees az) 0 Hax), H. cbn [bind].
  pose proof (dal_object _ _ _ _ _ _ _ _ _ Hi H) as Eb.
  change (tot_add (repitch b q) az) with (tot_add b az).
  destruct azs as [|az2 azs].
  - cbn [azimuth_loop]. apply f_equal. repeat apply (f_equal2 pair); try reflexivity.
    destruct acc as [t|]; [|reflexivity]. destruct (fvals (map o_Np ls)) as [Np|]; [|reflexivity].
    destruct (fvals (map o_Tp ls)) as [Tp|]; [|reflexivity]. apply f_equal.
    cbn [length sumf]. simpl INR. replace 1 with (0 + 1) by ring. rewrite <- tot_add_step.
    unfold tot_plus, sector_totals.
    destruct (thrustTorque _ _ _ _ _ _ _ _ _ _ _) as [[[[Ts Ys] Zs] Qs] Ms].
    destruct (tot_add b az Np Tp t) as [u1 u2 u3 u4 u5 u6 u7]. cbn [t_T t_Y t_Z t_Q t_My t_Mz t_Mb]. unfold Rdiv. f_equal; ring.
  - rewrite Eb. rewrite <- Eb.  rewrite Eb at 1. rewrite (IH b (radians p) U Om p _ _ b' ls Hax Hi H) by discriminate.
    apply f_equal. repeat apply (f_equal2 pair); try reflexivity.
    destruct acc as [t|]; [|reflexivity]. destruct (fvals (map o_Np ls)) as [Np|]; [|reflexivity].
    destruct (fvals (map o_Tp ls)) as [Tp|]; [|reflexivity]. apply f_equal.
    rewrite tot_add_step. set (l2 := az2 :: azs). change (length (az :: l2)) with (S (length l2)). rewrite S_INR. reflexivity.
Qed.

Lemma azimuth_axisymmetric_fails npi bq azs b q U Om p acc W e : axisymmetric b ->
  distributedAeroLoads npi bq b U Om p 0 = Raise e -> azs <> [] ->
  azimuth_loop npi bq azs (repitch b q) U Om p acc W = Raise e.
Proof.
  intros Hax H Hne. destruct azs as [|az azs]; [destruct Hne; reflexivity|].
  cbn [azimuth_loop]. rewrite dal_repitch, (loads_axisymmetric npi bq b U Om p (degrees az) 0 Hax), H. reflexivity.
Qed.

(** Totals of one condition with n sectors. *)
Definition mean_totals (b : blade) (n : nat) (Np Tp : list R) : totals :=
  tot_plus tot0 (sector_totals (with_sectors b n) Np Tp (INR n) (sumf cos (azimuths n)) (sumf sin (azimuths n))).

Lemma dal_sectors npi bq b n U Om p az :
  distributedAeroLoads npi bq (with_sectors b n) U Om p az =
  bind (distributedAeroLoads npi bq b U Om p az) (fun x => Ok (with_sectors (fst x) n, snd x)).
Proof.
  unfold distributedAeroLoads. change (shapes_ok (with_sectors b n)) with (shapes_ok b).
  destruct (negb (shapes_ok b)); [reflexivity|].
  change (wind (with_sectors b n)) with (wind b). change (b_r (with_sectors b n)) with (b_r b).
  change (station_i npi bq (with_sectors b n)) with (station_i npi bq b). cbv zeta.
  destruct (mapM _ _); reflexivity.
Qed.

Definition cond_result (npi : R) (bq : rootfinder fl) (b : blade) (n : nat) (c : R * R * R) : res (option totals * list fl) :=
  let '(U, Om, p) := c in
  bind (distributedAeroLoads npi bq b U Om p 0) (fun x =>
    Ok (match fvals (map o_Np (snd x)), fvals (map o_Tp (snd x)) with
        | Some Np, Some Tp => Some (mean_totals b n Np Tp) | _, _ => None end, map o_W (snd x))).

Lemma condition_axisymmetric npi bq conds : forall b n q W, axisymmetric b -> b_inverse b = false -> (1 <= n)%nat ->
  match condition_loop npi bq conds (repitch (with_sectors b n) q) W, mapM (cond_result npi bq b n) conds with
  | Ok (_, ts, w), Ok out => ts = map fst out /\ w = last (map (fun x => Some (snd x)) out) W
  | Raise e, Raise e' => e = e'
  | _, _ => False
  end.
Proof.
  induction conds as [|[[U Om] p] conds IH]; intros b n q W Hax Hi Hn; cbn [condition_loop mapM].
  - auto.
  - set (bn := with_sectors b n). change (b_nSector (repitch bn q)) with n.
    assert (Hax' : axisymmetric bn) by exact Hax. assert (Hi' : b_inverse bn = false) by exact Hi.
    pose proof (dal_sectors npi bq b n U Om p 0) as D. change (cond_result npi bq b n (U, Om, p)) with
      (bind (distributedAeroLoads npi bq b U Om p 0) (fun x =>
        Ok (match fvals (map o_Np (snd x)), fvals (map o_Tp (snd x)) with
            | Some Np, Some Tp => Some (mean_totals b n Np Tp) | _, _ => None end, map o_W (snd x)))).
    destruct (distributedAeroLoads npi bq b U Om p 0) as [[b' ls]|e] eqn:E; cbn [bind fst snd] in *.
    + rewrite (azimuth_axisymmetric npi bq (azimuths n) bn q U Om p (Some tot0) W _ ls Hax' Hi' D (azimuths_nonempty n Hn)).
      cbn [bind]. rewrite azimuths_length. fold (mean_totals b n).
      pose proof (dal_object _ _ _ _ _ _ _ _ _ Hi E) as ->.
      change (with_sectors (repitch b (radians p)) n) with (repitch bn (radians p)).
      specialize (IH b n (radians p) (Some (map o_W ls)) Hax Hi Hn). fold bn in IH.
      destruct (condition_loop npi bq conds (repitch bn (radians p)) (Some (map o_W ls))) as [[[b2 ts] w]|e];
        destruct (mapM (cond_result npi bq b n) conds) as [out|e']; try contradiction; cbn [bind]; [|assumption].
      destruct IH as [-> ->]. split; [reflexivity|]. cbn [map snd last]. destruct out as [|o out]; [reflexivity|].
      cbn [map]. clear. revert o. induction out as [|o' out IH]; intros o; [reflexivity|]. exact (IH o').
    + rewrite (azimuth_axisymmetric_fails npi bq (azimuths n) bn q U Om p (Some tot0) W e Hax' D (azimuths_nonempty n Hn)).
      reflexivity.
Qed.

Lemma mean_same b n m Np Tp : (1 <= n)%nat -> (1 <= m)%nat ->
  t_T (mean_totals b n Np Tp) = t_T (mean_totals b m Np Tp) /\
  t_Q (mean_totals b n Np Tp) = t_Q (mean_totals b m Np Tp) /\
  t_Mb (mean_totals b n Np Tp) = t_Mb (mean_totals b m Np Tp).
Proof.
  intros Hn Hm. apply le_INR in Hn, Hm. simpl INR in Hn, Hm.
  unfold mean_totals, tot_plus, sector_totals, with_sectors, tot0.
  cbn [b_B b_nSector b_r b_precurve b_presweep b_precone b_Rhub b_Rtip b_precurveTip b_presweepTip].
  destruct (thrustTorque _ _ _ _ _ _ _ _ _ _ _) as [[[[Ts Ys] Zs] Qs] Ms].
  cbn [t_T t_Y t_Z t_Q t_My t_Mz t_Mb]. repeat split; field; lra.
Qed.

Lemma mean_zero b n Np Tp : (2 <= n)%nat ->
  let t := mean_totals b n Np Tp in t_Y t = 0 /\ t_Z t = 0 /\ t_My t = 0 /\ t_Mz t = 0.
Proof.
  intros Hn. destruct (sector_balance n Hn) as [EC ES].
  unfold mean_totals. rewrite EC, ES. unfold tot_plus, sector_totals, with_sectors, tot0.
  cbn [b_B b_nSector b_r b_precurve b_presweep b_precone b_Rhub b_Rtip b_precurveTip b_presweepTip].
  destruct (thrustTorque _ _ _ _ _ _ _ _ _ _ _) as [[[[Ts Ys] Zs] Qs] Ms].
  cbn [t_T t_Y t_Z t_Q t_My t_Mz t_Mb]. unfold Rdiv. repeat split; ring.
Qed.

Lemma mean_one b Np Tp : let t := mean_totals b 1 Np Tp in t_My t = INR (b_B b) * t_Mb t /\ t_Mz t = 0.
Proof.
  destruct sector_one as [EC ES].
  unfold mean_totals. rewrite EC, ES. unfold tot_plus, sector_totals, with_sectors, tot0.
  cbn [b_B b_nSector b_r b_precurve b_presweep b_precone b_Rhub b_Rtip b_precurveTip b_presweepTip].
  destruct (thrustTorque _ _ _ _ _ _ _ _ _ _ _) as [[[[Ts Ys] Zs] Qs] Ms].
  cbn [t_T t_Y t_Z t_Q t_My t_Mz t_Mb]. simpl INR. split; field.
Qed.

(** Results of evaluate for an axisymmetric rotor, in closed form. *)
Lemma evaluate_axisymmetric npi bq b n conds : axisymmetric b -> b_inverse b = false -> (1 <= n)%nat -> conds <> [] ->
  returned (evaluate npi bq (with_sectors b n) conds) =
  bind (mapM (cond_result npi bq b n) conds) (fun out =>
    Ok (map (fun ct : (R * R * R) * option totals =>
               let '((U, Om, _), t) := ct in option_map (finish b U Om) t) (combine conds (map fst out)),
        last (map snd out) [])).
Proof.
  intros Hax Hi Hn Hc. unfold evaluate.
  pose proof (condition_axisymmetric npi bq conds b n (b_pitch b) None Hax Hi Hn) as S.
  change (repitch (with_sectors b n) (b_pitch b)) with (repitch (with_sectors b n) (b_pitch (with_sectors b n))) in S.
  rewrite <- repitch_self in S.
  destruct (condition_loop npi bq conds (with_sectors b n) None) as [[[b1 ts] w]|e] eqn:E1;
    destruct (mapM (cond_result npi bq b n) conds) as [out|e'] eqn:E2; try contradiction; cbn [bind].
  - destruct S as [-> ->].
    assert (Hne : out <> []).
    { intros ->. apply mapM_ok in E2. inversion E2. subst. destruct Hc; reflexivity. }
    assert (EL : last (map (fun x : option totals * list fl => Some (snd x)) out) None = Some (last (map snd out) [])).
    { clear - Hne. induction out as [|x out IH]; [destruct Hne; reflexivity|]. destruct out as [|y out]; [reflexivity|].
      cbn [map last] in *. apply IH. discriminate. }
    rewrite EL. unfold returned. cbn [bind fst snd]. reflexivity.
  - subst. reflexivity.
Qed.

Lemma cond_result_ok npi bq b n c t w : cond_result npi bq b n c = Ok (t, w) ->
  exists b' ls, distributedAeroLoads npi bq b (fst (fst c)) (snd (fst c)) (snd c) 0 = Ok (b', ls) /\ w = map o_W ls /\
   t = match fvals (map o_Np ls), fvals (map o_Tp ls) with Some Np, Some Tp => Some (mean_totals b n Np Tp) | _, _ => None end.
Proof.
  destruct c as [[U Om] p]. cbn [cond_result fst snd]. intros H. apply bind_ok in H. destruct H as ((b' & ls) & H1 & H2).
  exists b', ls. split; [exact H1|]. apply ok_inj in H2. cbn [fst snd] in H2. injection H2; auto.
Qed.

(** C28 *)
Lemma sector_count : forall npi bq b n m conds, axisymmetric b -> b_inverse b = false -> (1 <= n)%nat -> (1 <= m)%nat ->
  conds <> [] ->
  match returned (evaluate npi bq (with_sectors b n) conds), returned (evaluate npi bq (with_sectors b m) conds) with
  | Ok (o1, w1), Ok (o2, w2) =>
      Forall2 (fun x y => agree (fun z => t_T (y_tot z)) x y /\ agree (fun z => t_Q (y_tot z)) x y /\
                          agree y_P x y /\ agree (fun z => t_Mb (y_tot z)) x y) o1 o2 /\ w1 = w2
  | Raise e1, Raise e2 => e1 = e2
  | _, _ => False
  end.
Proof.
  intros npi bq b n m conds Hax Hi Hn Hm Hc.
  rewrite !evaluate_axisymmetric by assumption. clear Hc.
  assert (G : match mapM (cond_result npi bq b n) conds, mapM (cond_result npi bq b m) conds with
    | Ok o1, Ok o2 => map snd o1 = map snd o2 /\
        Forall2 (fun x y => agree (fun z => t_T (y_tot z)) x y /\ agree (fun z => t_Q (y_tot z)) x y /\
                          agree y_P x y /\ agree (fun z => t_Mb (y_tot z)) x y)
          (map (fun ct : (R * R * R) * option totals =>
               let '((U, Om, _), t) := ct in option_map (finish b U Om) t) (combine conds (map fst o1)))
          (map (fun ct : (R * R * R) * option totals =>
               let '((U, Om, _), t) := ct in option_map (finish b U Om) t) (combine conds (map fst o2)))
    | Raise e1, Raise e2 => e1 = e2 | _, _ => False end).
  { induction conds as [|[[U Om] p] conds IH]; cbn [mapM]; [split; [reflexivity|constructor]|].
    change (cond_result npi bq b n (U, Om, p)) with
      (bind (distributedAeroLoads npi bq b U Om p 0) (fun x =>
        Ok (match fvals (map o_Np (snd x)), fvals (map o_Tp (snd x)) with
            | Some Np, Some Tp => Some (mean_totals b n Np Tp) | _, _ => None end, map o_W (snd x)))).
    change (cond_result npi bq b m (U, Om, p)) with
      (bind (distributedAeroLoads npi bq b U Om p 0) (fun x =>
        Ok (match fvals (map o_Np (snd x)), fvals (map o_Tp (snd x)) with
            | Some Np, Some Tp => Some (mean_totals b m Np Tp) | _, _ => None end, map o_W (snd x)))). destruct (distributedAeroLoads npi bq b U Om p 0) as [[b' ls]|e]; cbn [bind fst snd]; [|reflexivity].
    destruct (mapM (cond_result npi bq b n) conds) as [o1|e1]; destruct (mapM (cond_result npi bq b m) conds) as [o2|e2];
      try contradiction; cbn [bind]; [|assumption].
    destruct IH as [I1 I2]. cbn [map fst snd combine]. split; [rewrite I1; reflexivity|]. constructor; [|exact I2].
    destruct (fvals (map o_Np ls)) as [Np|]; [|cbn; auto]. destruct (fvals (map o_Tp ls)) as [Tp|]; [|cbn; auto].
    destruct (mean_same b n m Np Tp Hn Hm) as (H1 & H2 & H3).
    cbn [option_map agree]. unfold finish. cbn [y_tot y_P]. rewrite H1, H2, H3. auto. }
  destruct (mapM (cond_result npi bq b n) conds) as [o1|e1]; destruct (mapM (cond_result npi bq b m) conds) as [o2|e2];
      try contradiction; cbn [bind]; [|assumption].
  destruct G as [G1 G2]. rewrite G1. auto.
Qed.

(** Every output of an axisymmetric rotor is a mean over equal sectors. *)
Lemma outputs_axisymmetric npi bq b n conds b' outs w i y : axisymmetric b -> b_inverse b = false -> (1 <= n)%nat ->
  evaluate npi bq (with_sectors b n) conds = Ok (b', outs, w) -> nth_error outs i = Some (Some y) ->
  exists Np Tp, y_tot y = mean_totals b n Np Tp.
Proof.
  intros Hax Hi Hn E Ey.
  destruct conds as [|c conds].
  { unfold evaluate in E. cbn in E. discriminate. }
  pose proof (evaluate_axisymmetric npi bq b n (c :: conds) Hax Hi Hn ltac:(discriminate)) as S.
  rewrite E in S. unfold returned at 1 in S. cbn [bind fst snd] in S.
  set (cs := c :: conds) in *. clearbody cs.
  destruct (mapM (cond_result npi bq b n) cs) as [out|] eqn:EM; [|discriminate]. cbn [bind] in S.
  apply ok_inj in S. apply (f_equal fst) in S. cbn [fst] in S. subst outs. apply mapM_ok in EM.
  clear E w b' c conds. revert i Ey. induction EM as [|c [t w] cs out H EM IH]; intros i Ey.
  - destruct i; discriminate.
  - destruct c as [[U Om] p]. cbn [map combine fst] in Ey. destruct i as [|i]; cbn [nth_error] in Ey; [|eapply IH; exact Ey].
    apply cond_result_ok in H. destruct H as (b' & ls & _ & _ & ->).
    destruct (fvals (map o_Np ls)) as [Np|]; [|discriminate]. destruct (fvals (map o_Tp ls)) as [Tp|]; [|discriminate].
    injection Ey; intros <-. exists Np, Tp. reflexivity.
Qed.

(** C29 *)
Lemma side_loads_vanish : forall npi bq b n conds b' outs w i y, axisymmetric b -> b_inverse b = false -> (2 <= n)%nat ->
  evaluate npi bq (with_sectors b n) conds = Ok (b', outs, w) -> nth_error outs i = Some (Some y) ->
  t_Y (y_tot y) = 0 /\ t_Z (y_tot y) = 0 /\ t_My (y_tot y) = 0 /\ t_Mz (y_tot y) = 0.
Proof.
  intros npi bq b n conds b' outs w i y Hax Hi Hn E Ey.
  destruct (outputs_axisymmetric npi bq b n conds b' outs w i y Hax Hi ltac:(lia) E Ey) as (Np & Tp & ->).
  apply mean_zero. assumption.
Qed.

Lemma side_moment_one : forall npi bq b conds b' outs w i y, axisymmetric b -> b_inverse b = false ->
  evaluate npi bq (with_sectors b 1) conds = Ok (b', outs, w) -> nth_error outs i = Some (Some y) ->
  t_My (y_tot y) = INR (b_B b) * t_Mb (y_tot y) /\ t_Mz (y_tot y) = 0.
Proof.
  intros npi bq b conds b' outs w i y Hax Hi E Ey.
  destruct (outputs_axisymmetric npi bq b 1 conds b' outs w i y Hax Hi ltac:(lia) E Ey) as (Np & Tp & ->).
  apply mean_one.
Qed.

(** C27 *)
Lemma outputs_consistent : forall npi bq b conds b' outs w i y U Om p,
  evaluate npi bq b conds = Ok (b', outs, w) -> nth_error outs i = Some (Some y) -> nth_error conds i = Some (U, Om, p) ->
  b_rho b <> 0 -> U <> 0 -> b_rotorR b <> 0 ->
  let q := b_rho b * U ^ 2 / 2 in
  let A := PI * b_rotorR b ^ 2 in
  let t := y_tot y in
  y_P y = t_Q t * Om * PI / 30 /\
  y_CP y * (q * A * U) = y_P y /\ y_CT y * (q * A) = t_T t /\ y_CY y * (q * A) = t_Y t /\ y_CZ y * (q * A) = t_Z t /\
  y_CQ y * (q * A * b_rotorR b) = t_Q t /\ y_CMy y * (q * A * b_rotorR b) = t_My t /\
  y_CMz y * (q * A * b_rotorR b) = t_Mz t /\ y_CMb y * (q * A * b_rotorR b) = t_Mb t /\
  y_CP y = y_CQ y * (Om * PI / 30 * b_rotorR b / U).
Proof.
  intros npi bq b conds b' outs w i y U Om p E Ey Ec Hr HU HR q A t.
  unfold evaluate in E. apply bind_ok in E. destruct E as (((c & ts) & W) & H1 & H2).
  destruct W; [|discriminate]. apply ok_inj in H2. apply (f_equal (fun x => snd (fst x))) in H2. cbn [fst snd] in H2. subst outs.
  assert (G : exists t0, y = finish b U Om t0).
  { clear H1. revert ts i Ey Ec. induction conds as [|[[U' Om'] p'] conds IH]; intros ts i Ey Ec; [destruct i; discriminate|].
    destruct ts as [|t' ts]; [destruct i; discriminate|]. cbn [combine map] in Ey.
    destruct i as [|i]; cbn [nth_error] in Ey, Ec; [|eapply IH; eassumption].
    injection Ec; intros; subst. destruct t' as [t'|]; [|discriminate]. injection Ey; intros; subst. eauto. }
  destruct G as (t0 & ->). subst t q A. pose proof PI_RGT_0 as HP. assert (HP0 : PI <> 0) by lra.
  unfold finish. cbn [y_P y_tot y_CP y_CT y_CY y_CZ y_CQ y_CMy y_CMz y_CMb].
  repeat split; field; auto.
Qed.
