(** Proofs about CCBladeTwist (C57, C58, C74-C77). *)
From Coq Require Import Reals Bool Arith List Lra Lia.
From Verif Require Import Prelim CSystem Num Bem InterpSpec BemDiff Blade BladeSpec FlProofs StationProofs StationLoads BladeProofs BladeDiff BladeDiffSpec BladeDvProofs
  ConstructProofs Component ComponentSpec.
Import ListNotations.
Open Scope R_scope.

Lemma mapM_length {A B} (f : A -> res B) l : forall ys, mapM f l = Ok ys -> length ys = length l.
Proof.
  induction l as [|x l IH]; intros ys H; cbn [mapM] in H; [apply ok_inj in H; subst; reflexivity|].
  apply bind_ok in H. destruct H as (y & _ & H). apply bind_ok in H. destruct H as (ys' & E & H). apply ok_inj in H. subst ys.
  cbn [length]. rewrite (IH _ E). reflexivity.
Qed.

(** ** The cap *)
Lemma cap_value : twist_cap = radians 20.
Proof. unfold twist_cap, radians. field. Qed.

Lemma cap_test t : nlt (Fin twist_cap) t = true <-> too_twisted t.
Proof.
  rewrite cap_value. destruct t; cbn; try (split; [discriminate || tauto|tauto || reflexivity]).
  - split; [apply rltb_true|intros; apply rltb_true; assumption].
  - assert (0 < radians 20) by (unfold radians; pose proof PI_RGT_0; lra).
    split; [|tauto]. intros X. try discriminate X; try (apply rltb_true in X; lra).
Qed.

Lemma too_nan : ~ too_twisted NaN. Proof. cbn. tauto. Qed.
Lemma too_cap : ~ too_twisted (Fin (radians 20)). Proof. cbn. lra. Qed.

Lemma nth_repeat_lt {X} (x d : X) n k : (k < n)%nat -> nth k (repeat x n) d = x.
Proof. revert k. induction n as [|n IH]; intros [|k] H; cbn; try lia; [reflexivity|apply IH; lia]. Qed.
Lemma nth_skipn' {X} (d : X) n (l : list X) k : nth k (skipn n l) d = nth (n + k) l d.
Proof. revert l. induction n as [|n IH]; intros [|x l]; cbn; try reflexivity; [destruct k; reflexivity|apply IH]. Qed.

Lemma cap_from_capped th : forall k, (k <= length th)%nat -> (forall j, (k <= j)%nat -> ~ too_twisted (nth j th NaN)) -> capped th (cap_from k th).
Proof.
  induction k as [|k IH]; intros Hk Hj.
  - cbn [cap_from]. split; [reflexivity|]. split; [intros j; apply Hj; lia|]. split; [|reflexivity].
    intros m Hm. exfalso. exact (Hj m (Nat.le_0_l m) Hm).
  - cbn [cap_from]. destruct (nlt (Fin twist_cap) (nth k th NaN)) eqn:E.
    + apply cap_test in E. set (b := repeat (Fin twist_cap) (S k) ++ skipn (S k) th).
      assert (B : forall j, nth j b NaN = if (j <? S k)%nat then Fin (radians 20) else nth j th NaN).
      { intros j. unfold b. destruct (Nat.ltb_spec j (S k)) as [L|L].
        - rewrite app_nth1 by (rewrite repeat_length; assumption). rewrite nth_repeat_lt by assumption. rewrite cap_value. reflexivity.
        - rewrite app_nth2 by (rewrite repeat_length; assumption). rewrite repeat_length, nth_skipn'. f_equal. lia. }
      split; [unfold b; rewrite app_length, repeat_length, skipn_length; lia|].
      split; [|split].
      * intros j. rewrite B. destruct (Nat.ltb_spec j (S k)); [apply too_cap|apply Hj; assumption].
      * intros m Hm Hout. assert (m = k).
        { destruct (Nat.lt_trichotomy m k) as [L|[L|L]]; [|assumption|].
          - exfalso. exact (Hout k L E).
          - exfalso. exact (Hj m ltac:(lia) Hm). }
        subst m. intros j. rewrite B. split; intros L.
        -- rewrite (proj2 (Nat.ltb_lt _ _)) by lia. reflexivity.
        -- rewrite (proj2 (Nat.ltb_ge _ _)) by lia. reflexivity.
      * intros H. exfalso. exact (H k E).
    + apply IH; [lia|]. intros j Hjk. destruct (Nat.eq_dec j k) as [->|]; [|apply Hj; lia].
      intros X. apply cap_test in X. congruence.
Qed.

Lemma cap_capped th : capped th (cap_twist th).
Proof. apply cap_from_capped; [lia|]. intros j Hj. rewrite nth_overflow by assumption. apply too_nan. Qed.

(** ** The object through calls *)
Lemma set_call_twice b t1 p1 t2 p2 : set_call (set_call b t1 p1) t2 p2 = set_call b t2 p2.
Proof. reflexivity. Qed.

Lemma dal_shape npi bq b U Om p az b' ls : distributedAeroLoads npi bq b U Om p az = Ok (b', ls) -> exists th q, b' = set_call b th q.
Proof.
  unfold distributedAeroLoads. destruct (negb _); [discriminate|]. intros H. apply bind_ok in H. destruct H as (out & _ & H).
  apply ok_inj in H. apply (f_equal fst) in H. cbn [fst] in H. rewrite <- H. eauto.
Qed.
Lemma azimuth_shape npi bq azs : forall b U Om p acc W b' t w, azimuth_loop npi bq azs b U Om p acc W = Ok (b', t, w) ->
  b' = b \/ exists th q, b' = set_call b th q.
Proof.
  induction azs as [|az azs IH]; intros b U Om p acc W b' t w H; cbn [azimuth_loop] in H.
  - apply ok_inj in H. apply (f_equal (fun x => fst (fst x))) in H. left. exact (eq_sym H).
  - apply bind_ok in H. destruct H as ((b1 & ls) & H1 & H2). destruct (dal_shape _ _ _ _ _ _ _ _ _ H1) as (th & q & ->).
    right. destruct (IH _ _ _ _ _ _ _ _ _ H2) as [->|(th2 & q2 & ->)]; [eauto|]. rewrite set_call_twice. eauto.
Qed.
Lemma condition_shape npi bq conds : forall b W b' t w, condition_loop npi bq conds b W = Ok (b', t, w) ->
  b' = b \/ exists th q, b' = set_call b th q.
Proof.
  induction conds as [|[[U Om] p] conds IH]; intros b W b' t w H; cbn [condition_loop] in H.
  - apply ok_inj in H. apply (f_equal (fun x => fst (fst x))) in H. left. exact (eq_sym H).
  - apply bind_ok in H. destruct H as (((b1 & t1) & W1) & H1 & H2). apply bind_ok in H2. destruct H2 as (((b2 & t2) & W2) & H2 & H3).
    apply ok_inj in H3. apply (f_equal (fun x => fst (fst x))) in H3. cbn [fst] in H3. subst b2.
    destruct (azimuth_shape _ _ _ _ _ _ _ _ _ _ _ _ H1) as [->|(th & q & ->)]; destruct (IH _ _ _ _ _ H2) as [->|(th2 & q2 & ->)]; eauto.
    rewrite set_call_twice. eauto.
Qed.
Lemma evaluate_shape npi bq b conds b' ys w : evaluate npi bq b conds = Ok (b', ys, w) -> b' = b \/ exists th q, b' = set_call b th q.
Proof.
  unfold evaluate. intros H. apply bind_ok in H. destruct H as (((b1 & ts) & W) & H1 & H2). destruct W; [|discriminate].
  apply ok_inj in H2. apply (f_equal (fun x => fst (fst x))) in H2. cbn [fst] in H2. subst b1. eapply condition_shape; exact H1.
Qed.

(** ** Design *)
Lemma construct_keeps g b : construct g = Ok b -> b_chord b = g_chord g /\ b_rho b = g_rho g /\ length (b_r b) = length (g_r g).
Proof.
  unfold construct. cbv zeta. destruct (Nat.ltb _ 2); [discriminate|]. destruct (curve_error _ _ _ _ _); [discriminate|].
  intros EC. apply ok_inj in EC. rewrite <- EC. cbn [b_chord b_rho b_r]. split; [reflexivity|]. split; [reflexivity|].
  destruct (reqb _ (last _ _)); rewrite ?set_last_length; destruct (reqb _ (hd _ _)); rewrite ?set_first_length; reflexivity.
Qed.

Section T.
Variable npi : R.
Variable bq : rootfinder fl.
Variable alpha1 : nat -> res R.
Variable smooth : list R -> list R -> list fl -> list fl.

Lemma inverse_keeps o i b : inverse_design npi bq alpha1 o i = Ok b ->
  b_chord b = g_chord (wi_args i) /\ b_rho b = g_rho (wi_args i) /\ length (b_r b) = length (g_r (wi_args i)).
Proof.
  unfold inverse_design. intros H. apply bind_ok in H. destruct H as (b0 & EC & H). apply construct_keeps in EC.
  apply bind_ok in H. destruct H as (tg & _ & H). cbv zeta in H. apply bind_ok in H. destruct H as (idx & _ & H).
  apply bind_ok in H. destruct H as (al & _ & H). apply bind_ok in H. destruct H as (((b1 & ys) & w) & EE & H).
  apply ok_inj in H. cbn [fst] in H. subst b1. destruct (evaluate_shape _ _ _ _ _ _ _ EE) as [->|(th & q & ->)]; exact EC.
Qed.

Lemma design_keeps o i b : twist_design npi bq alpha1 smooth o i = Ok b ->
  b_inverse b = false /\ b_chord b = g_chord (wi_args i) /\ b_rho b = g_rho (wi_args i) /\ length (b_r b) = length (g_r (wi_args i)).
Proof.
  unfold twist_design. destruct (wo_inverse o).
  - destruct (wo_flag o).
    + intros H. apply bind_ok in H. destruct H as (b0 & _ & H). discriminate H.
    + intros H. apply bind_ok in H. destruct H as (b0 & E & H). apply inverse_keeps in E. cbv zeta in H. apply ok_inj in H. rewrite <- H. split; [reflexivity|exact E].
  - intros H. apply bind_ok in H. destruct H as (b0 & E & H). apply construct_keeps in E. apply ok_inj in H. rewrite <- H. split; [reflexivity|exact E].
Qed.

(** C58 for the component. *)
Lemma twist_capped : forall o i prev out, wo_inverse o = true -> twist_compute npi bq alpha1 smooth o i prev = Ok out ->
  exists b, inverse_design npi bq alpha1 o i = Ok b /\
    (wo_inn_af o = false -> capped (b_theta b) (wt_theta out)) /\
    (wo_inn_af o = true -> exists c, capped (b_theta b) c /\ wt_theta out = smooth (g_r (wi_args i)) (wi_s_opt i) c).
Proof.
  intros o i prev out Hi H. unfold twist_compute in H. apply bind_ok in H. destruct H as (b & ED & H).
  destruct (design_keeps _ _ _ ED) as (Hinv & _).
  unfold twist_finish in H. apply bind_ok in H. destruct H as ((b1 & ls) & E1 & H). apply bind_ok in H. destruct H as (((b2 & ys) & W) & E2 & H).
  apply ok_inj in H. apply (f_equal wt_theta) in H. cbn [wt_theta] in H.
  apply dal_object in E1; [|exact Hinv]. subst b1.
  apply evaluate_object in E2; [|exact Hinv]. destruct E2 as (q & ->). change (b_theta (repitch (repitch b (radians (wi_pitch i))) q)) with (b_theta b) in H.
  unfold twist_design in ED. rewrite Hi in ED. destruct (wo_flag o).
  { apply bind_ok in ED. destruct ED as (b0 & _ & X). discriminate X. }
  apply bind_ok in ED. destruct ED as (b0 & EI & ED). exists b0. split; [exact EI|]. cbv zeta in ED. apply ok_inj in ED.
  apply (f_equal b_theta) in ED. cbn [b_theta set_inverse] in ED. rewrite <- H, <- ED. split; intros ->.
  - apply cap_capped.
  - exists (cap_twist (b_theta b0)). split; [apply cap_capped|reflexivity].
Qed.

(** ** Lift and drag *)
Lemma to_airfoil_rep x y t x' y' t' : rep x x' -> rep y y' -> rep t t' ->
  rep (fst (to_airfoil x y t)) (x' * cos (radians t') - y' * sin (radians t')) /\
  rep (snd (to_airfoil x y t)) (x' * sin (radians t') + y' * cos (radians t')).
Proof.
  intros Hx Hy Ht. unfold to_airfoil. cbn [fst snd nadd nmul ncos nsin nopp ofR fl_arith].
  assert (T : rep (fmul (fmul t (Fin (-1))) (Fin (PI / 180))) (- radians t')).
  { replace (- radians t') with (t' * -1 * (PI / 180)) by (unfold radians; field). reps. }
  split.
  - replace (x' * cos (radians t') - y' * sin (radians t')) with (x' * cos (- radians t') + y' * sin (- radians t')) by (rewrite cos_neg, sin_neg; ring).
    apply rep_add; apply rep_mul; try assumption; [apply rep_cos|apply rep_sin]; exact T.
  - replace (x' * sin (radians t') + y' * cos (radians t')) with (- x' * sin (- radians t') + y' * cos (- radians t')) by (rewrite cos_neg, sin_neg; ring).
    apply rep_add; apply rep_mul; try assumption; [apply rep_neg; assumption|apply rep_sin; exact T|apply rep_cos; exact T].
Qed.

(** The real version is the one of the coordinate-system module. *)
Lemma to_airfoil_csystem (v : dvec) (th : R) :
  to_airfoil (vx v) (vy v) th = (vx (bladeToAirfoil v th), vy (bladeToAirfoil v th)) /\ vz (bladeToAirfoil v th) = vz v.
Proof.
  unfold to_airfoil, bladeToAirfoil, rot_xyz, rotateAboutZ. cbn [nadd nmul ncos nsin nopp ofR R_arith vx vy vz]. cbv zeta. split; [|reflexivity].
  match goal with |- (?a, ?b) = (?c, ?d) => assert (a = c /\ b = d) as [-> ->]; [|reflexivity] end.
  match goal with |- context [vx v * cos ?t + vy v * sin _ = vx v * cos ?u + _] => replace t with u; [split; reflexivity|] end.
  unfold radians. field.
Qed.

Lemma nth_error_combine {X Y} (a : list X) (b : list Y) k x y : nth_error a k = Some x -> nth_error b k = Some y -> nth_error (combine a b) k = Some (x, y).
Proof.
  revert b k. induction a as [|u a IH]; intros [|w b] [|k] Ha Hb; try discriminate; cbn in *.
  - injection Ha; injection Hb; intros -> ->. reflexivity.
  - apply IH; assumption.
Qed.
Lemma nth_of_error {X} (l : list X) k x d : nth_error l k = Some x -> nth k l d = x.
Proof. intros H. apply nth_error_nth. exact H. Qed.
Lemma rep_nth (l : list fl) k x : rep (nth k l NaN) x -> nth_error l k = Some (nth k l NaN).
Proof.
  intros H. destruct (nth_error l k) as [y|] eqn:E; [rewrite (nth_of_error _ _ _ NaN E); reflexivity|].
  apply nth_error_None in E. rewrite nth_overflow in H by assumption. discriminate H.
Qed.

Lemma dal_station b U Om p az b' ls k l : b_inverse b = false -> distributedAeroLoads npi bq b U Om p az = Ok (b', ls) -> nth_error ls k = Some l ->
  (k < length (b_r b))%nat /\ exists r c th af Vx Vy, nth_error (b_chord b) k = Some c /\ nth_error (b_theta b) k = Some th /\
    solve_station npi bq (rotor_of b (radians p)) (negb (reqb Om 0)) (mkSect r (Fin c) th af Vx Vy) = Ok l.
Proof.
  intros Hi H Hk. unfold distributedAeroLoads in H. destruct (negb (shapes_ok b)); [discriminate|]. cbv zeta in H.
  apply bind_ok in H. destruct H as (ys & EM & H). apply ok_inj in H. apply (f_equal snd) in H. cbn [snd] in H. subst ls.
  rewrite nth_error_map in Hk. destruct (nth_error ys k) as [[th l']|] eqn:EY; [|discriminate Hk]. cbn in Hk. injection Hk; intros ->.
  assert (L : (k < length ys)%nat) by (apply nth_error_Some; congruence).
  assert (LY : length ys = length (b_r b)).
  { pose proof (mapM_length _ _ _ EM) as X. rewrite seq_length in X. exact X. }
  split; [lia|]. pose proof (mapM_nth _ _ _ 0%nat (Fin 0, zero_load) EM k ltac:(rewrite seq_length; lia)) as S.
  rewrite seq_nth in S by lia. cbn [Nat.add] in S. rewrite (nth_of_error _ _ _ _ EY) in S.
  unfold station_i in S. cbv zeta in S. apply bind_ok in S. destruct S as (r & _ & S). apply bind_ok in S. destruct S as (c & E2 & S).
  apply bind_ok in S. destruct S as (af & _ & S). rewrite Hi in S. apply bind_ok in S. destruct S as (th0 & E3 & S).
  apply bind_ok in S. destruct S as (l0 & ES & S). apply ok_inj in S. assert (X := f_equal snd S). cbn [snd] in X. subst l0. clear S.
  unfold pyget in E2, E3. destruct (nth_error (b_chord b) k) as [c'|]; [|discriminate E2]. apply ok_inj in E2. subst c'.
  destruct (nth_error (b_theta b) k) as [t'|]; [|discriminate E3]. apply ok_inj in E3. subst t'.
  do 6 eexists. split; [reflexivity|]. split; [reflexivity|]. exact ES.
Qed.

(** C57 *)
Lemma lift_drag : forall o i prev y, 1 / 10 < npi -> root_inside bq -> twist_compute npi bq alpha1 smooth o i prev = Ok y ->
  exists b b' ls, twist_design npi bq alpha1 smooth o i = Ok b /\
    distributedAeroLoads npi bq b (wi_Uhub i) (twist_Omega i) (wi_pitch i) 0 = Ok (b', ls) /\ b_theta b = wt_theta y /\ length ls = length (g_r (wi_args i)) /\
    forall k l t, nth_error ls k = Some l -> rep (nth k (wt_theta y) NaN) t ->
      nth k (wt_cl y) NaN = o_cl l /\ nth k (wt_cd y) NaN = o_cd l /\ nth k (wt_alpha y) NaN = o_alpha l /\
      nth k (wt_Px_b y) NaN = o_Np l /\ nth k (wt_Py_b y) NaN = fneg (o_Tp l) /\
      (forall cl cd W al, rep (o_cl l) cl -> rep (o_cd l) cd -> rep (o_W l) W -> rep (o_alpha l) al ->
        let q := g_rho (wi_args i) * W ^ 2 / 2 in let c := nth k (g_chord (wi_args i)) 0 in
        rep (nth k (wt_LiftF y) NaN) (q * c * cl) /\ rep (nth k (wt_DragF y) NaN) (q * c * cd)) /\
      (forall N T, rep (o_Np l) N -> rep (o_Tp l) T -> exists X Y,
        rep (nth k (wt_Px_af y) NaN) X /\ rep (nth k (wt_Py_af y) NaN) Y /\ X ^ 2 + Y ^ 2 = N ^ 2 + T ^ 2).
Proof.
  intros o i prev y Hn Hb H. unfold twist_compute in H. apply bind_ok in H. destruct H as (b & ED & H).
  destruct (design_keeps _ _ _ ED) as (Hinv & Hch & Hrho & Hlen).
  unfold twist_finish in H. apply bind_ok in H. destruct H as ((b1 & ls) & E1 & H). apply bind_ok in H. destruct H as (((b2 & ys) & W2) & E2 & H).
  assert (B1 := E1). apply dal_object in B1; [|exact Hinv]. subst b1.
  assert (B2 := E2). apply evaluate_object in B2; [|exact Hinv]. destruct B2 as (q2 & ->).
  change (b_theta (repitch (repitch b (radians (wi_pitch i))) q2)) with (b_theta b) in H. cbv zeta in H. apply ok_inj in H.
  exists b, (repitch b (radians (wi_pitch i))), ls. split; [exact ED|]. split; [exact E1|].
  assert (ET : wt_theta y = b_theta b) by (rewrite <- H; reflexivity). split; [symmetry; exact ET|].
  split.
  { rewrite <- Hlen. unfold distributedAeroLoads in E1. destruct (negb (shapes_ok b)); [discriminate|]. cbv zeta in E1.
    apply bind_ok in E1. destruct E1 as (ou & EM & E1). apply ok_inj in E1. apply (f_equal snd) in E1. cbn [snd] in E1. subst ls.
    rewrite map_length. pose proof (mapM_length _ _ _ EM) as X. rewrite seq_length in X. exact X. }
  intros k l t Hk Ht. rewrite ET in Ht. pose proof (rep_nth _ _ _ Ht) as Hth.
  destruct (dal_station _ _ _ _ _ _ _ _ _ Hinv E1 Hk) as (Lk & r & c & th & af & Vx & Vy & Ec & Eth & ES).
  rewrite Hth in Eth. assert (Eth' : nth k (b_theta b) NaN = th) by congruence. clear Eth. rewrite Eth' in *.
  assert (MP : forall (f : sload fl -> fl), nth k (map f ls) NaN = f l).
  { intros f. apply nth_of_error. rewrite nth_error_map, Hk. reflexivity. }
  rewrite <- H. cbn [wt_cl wt_cd wt_alpha wt_Px_b wt_Py_b wt_LiftF wt_DragF wt_Px_af wt_Py_af]. rewrite !MP.
  split; [reflexivity|]. split; [reflexivity|]. split; [reflexivity|]. split; [reflexivity|]. split; [reflexivity|].
  assert (TD : rep (theta_deg th) (t * 180 / PI)).
  { unfold theta_deg. cbn [ndiv nmul fl_arith]. apply rep_div; [reps|apply rep_Fin|apply PI_neq0]. }
  assert (EPb : nth_error (map (fun l => (o_Np l, nopp (o_Tp l))) ls) k = Some (o_Np l, nopp (o_Tp l))) by (rewrite nth_error_map, Hk; reflexivity).
  split.
  - intros cl cd W al Hcl Hcd HW Hal. set (q := g_rho (wi_args i) * W ^ 2 / 2). set (cc := nth k (g_chord (wi_args i)) 0).
    assert (Ecc : c = cc) by (unfold cc; rewrite <- Hch; symmetry; apply nth_of_error; exact Ec).
    pose proof (station_resolve npi bq (rotor_of b (radians (wi_pitch i))) _ (mkSect r (Fin c) th af Vx Vy) l t (radians (wi_pitch i)) c (b_rho b) cl cd W al Hn Hb Ht (rep_Fin _) (rep_Fin _) (rep_Fin _) ES Hcl Hcd HW Hal)
      as (_ & _ & _ & HN & HT).
    destruct (station_recover npi bq (rotor_of b (radians (wi_pitch i))) _ (mkSect r (Fin c) th af Vx Vy) l t (radians (wi_pitch i)) c (b_rho b) cl cd W al _ _ Hn Hb Ht (rep_Fin _) (rep_Fin _) (rep_Fin _) ES Hcl Hcd HW Hal HN HT)
      as (_ & HD & HL). cbv zeta in HD, HL.
    set (N := dynamic_pressure _ _ * c * fst _) in *. set (T := dynamic_pressure _ _ * c * snd _) in *. clearbody N T.
    rewrite Hrho, Ecc in HD, HL. fold q in HD, HL.
    assert (EF : nth_error (combine (map (fun l => (o_Np l, nopp (o_Tp l))) ls) (combine (b_theta b) ls)) k = Some ((o_Np l, nopp (o_Tp l)), (th, l)))
      by (apply nth_error_combine; [exact EPb|apply nth_error_combine; [exact Hth|exact Hk]]).
    destruct (to_airfoil_rep (o_Np l) (fneg (o_Tp l)) (fadd (fadd (theta_deg th) (o_alpha l)) (Fin (wi_pitch i))) N (- T) (t * 180 / PI + al + wi_pitch i) HN
      (rep_neg _ _ HT) (rep_add _ _ _ _ (rep_add _ _ _ _ TD Hal) (rep_Fin _))) as [RL RD].
    assert (EA : radians (t * 180 / PI + al + wi_pitch i) = radians al + t + radians (wi_pitch i)) by (unfold radians; field; apply PI_neq0).
    rewrite EA in RL, RD.
    split.
    + rewrite <- HL. match goal with |- rep (nth k (map fst (map ?f ?l0)) NaN) _ => rewrite (nth_of_error (map fst (map f l0)) k (fst (f ((o_Np l, nopp (o_Tp l)), (th, l)))) NaN) by (rewrite !nth_error_map, EF; reflexivity) end.
      cbv beta iota. match goal with |- rep _ ?u => replace u with (N * cos (radians al + t + radians (wi_pitch i)) - - T * sin (radians al + t + radians (wi_pitch i))) by ring end. exact RL.
    + rewrite <- HD. match goal with |- rep (nth k (map snd (map ?f ?l0)) NaN) _ => rewrite (nth_of_error (map snd (map f l0)) k (snd (f ((o_Np l, nopp (o_Tp l)), (th, l)))) NaN) by (rewrite !nth_error_map, EF; reflexivity) end.
      cbv beta iota. match goal with |- rep _ ?u => replace u with (N * sin (radians al + t + radians (wi_pitch i)) + - T * cos (radians al + t + radians (wi_pitch i))) by ring end. exact RD.
  - intros N T HN HT.
    assert (EF : nth_error (combine (map (fun l => (o_Np l, nopp (o_Tp l))) ls) (b_theta b)) k = Some ((o_Np l, nopp (o_Tp l)), th))
      by (apply nth_error_combine; [exact EPb|exact Hth]).
    destruct (to_airfoil_rep (o_Np l) (fneg (o_Tp l)) (theta_deg th) N (- T) (t * 180 / PI) HN (rep_neg _ _ HT) TD) as [RL RD].
    do 2 eexists. split; [|split].
    + match goal with |- rep (nth k (map fst (map ?f ?l0)) NaN) _ => rewrite (nth_of_error (map fst (map f l0)) k (fst (f ((o_Np l, nopp (o_Tp l)), th))) NaN) by (rewrite !nth_error_map, EF; reflexivity) end. exact RL.
    + match goal with |- rep (nth k (map snd (map ?f ?l0)) NaN) _ => rewrite (nth_of_error (map snd (map f l0)) k (snd (f ((o_Np l, nopp (o_Tp l)), th))) NaN) by (rewrite !nth_error_map, EF; reflexivity) end. exact RD.
    + set (a := radians _). pose proof (sin2_cos2 a) as S. unfold Rsqr in S.
      transitivity ((N ^ 2 + T ^ 2) * (sin a * sin a + cos a * cos a)); [ring|rewrite S; ring].
Qed.
End T.
