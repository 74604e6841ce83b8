(** Rotors of drag-only sections in wind from the front and from behind (C119, C120). *)
From Coquelicot Require Import Coquelicot.
From Coq Require Import Reals Bool Arith List Lra Lia Psatz.
From Verif Require Import Prelim Num CSystemSpec Bem BemGeomSpec BemGeomProofs IndSpec IndProofs Blade BladeSpec FlProofs StationProofs StationWitness StationExist StationLoads BladeProofs
  SectorProofs SimilaritySpec SymmetryProofs SectorWitness InverseForward BetzSpec BetzStation BetzRotor BetzWitness InterpSpec ConstructProofs ThrustRotor DragSpec DragStation.
Import ListNotations.
Open Scope R_scope.

(** A root finder that looks at one angle only. *)
Definition probe (x : R) (f : fl -> fl) (lo hi : fl) : res fl :=
  match fval lo, fval hi, fval (f (Fin x)) with
  | Some a, Some b, Some v => if andb (reqb v 0) (andb (rleb a x) (rleb x b)) then Ok (Fin x) else Raise ValueError
  | _, _, _ => Raise ValueError
  end.
Lemma probe_cases x f lo hi : probe x f lo hi = Raise ValueError \/ (probe x f lo hi = Ok (Fin x) /\ rep (f (Fin x)) 0 /\
  exists a b, rep lo a /\ rep hi b /\ a <= x <= b).
Proof.
  unfold probe, rep. destruct (fval lo) as [a|]; [|auto]. destruct (fval hi) as [b|]; [|auto]. destruct (fval (f (Fin x))) as [v|]; [|auto].
  destruct (reqb v 0) eqn:E; [|auto]. destruct (rleb a x) eqn:E1; [|auto]. destruct (rleb x b) eqn:E2; [|auto].
  cbn [andb]. right. apply reqb_true in E. apply rleb_true in E1, E2. subst v. split; [reflexivity|]. split; [reflexivity|]. exists a, b. auto.
Qed.
Lemma probe_zeros x : finds_zeros (probe x).
Proof.
  intros f lo hi v E. destruct (probe_cases x f lo hi) as [H|(H & Z & _)]; rewrite H in E; [discriminate|].
  apply ok_inj in E. subst v. exact Z.
Qed.
Lemma probe_inside x : root_inside (probe x).
Proof.
  intros f lo hi y _ E. destruct (probe_cases x f (Fin lo) (Fin hi)) as [H|(H & _ & a & b & Ra & Rb & I)]; rewrite H in E; [discriminate|].
  apply ok_inj in E. symmetry in E. exists x. unfold rep in Ra, Rb. cbn in Ra, Rb. injection Ra; injection Rb; intros <- <-. auto.
Qed.
Lemma probe_finds x f lo hi : rep (f (Fin x)) 0 -> lo <= x <= hi -> probe x f (Fin lo) (Fin hi) = Ok (Fin x).
Proof.
  intros Z H. unfold probe. cbn [fval]. unfold rep in Z. rewrite Z.
  replace (reqb 0 0) with true by (symmetry; apply reqb_true; reflexivity).
  replace (rleb lo x) with true by (symmetry; apply rleb_true; lra). replace (rleb x hi) with true by (symmetry; apply rleb_true; lra). reflexivity.
Qed.
Lemma probe_misses x f lo hi y : rep (f (Fin x)) y -> y <> 0 -> probe x f lo hi = Raise ValueError.
Proof. intros Q Hy. destruct (probe_cases x f lo hi) as [H|(_ & Z & _)]; [exact H|]. elim Hy. exact (rep_fun _ _ _ Q Z). Qed.

Lemma drag_no_lift : no_lift drag_af.
Proof. intros al Re. split; [apply rep_Fin|]. exists 1. split; [apply rep_Fin|lra]. Qed.

(** All corrections on; drag in the induction or not. *)
Definition full (u : bool) : bemopts := mkOpts u true true true.
(** A chord that makes the loading at the angle v one half, if the drag is in the induction. *)
Definition half_chord (u : bool) (v r : R) : R := 2 * PI * r * lossF (full u) 2 r (1 / 2) 3 v * q2.

Section Station.
Variables (u : bool) (v r U lam p : R).
Hypothesis Hr : 1 / 2 < r < 3.
Hypothesis Hv : 0 < v < PI.
Hypothesis Hs : sin v = q2.
Hypothesis Hc : cos v = q2 \/ cos v = - q2.
Hypothesis HU : U <> 0.
Hypothesis Hl : 0 < lam.
Let o := full u.
Let chord := half_chord u v r.
Let rt := mkRotor (Fin (1 / 2)) (Fin 3) 2 (Fin 1) (Fin 1) o 1 (Fin p).
Let sc := mkSect (Fin r) (Fin chord) (Fin 0) drag_af (Fin U) (Fin lam).
Let kap : R := if u then 1 / 2 else 0.

Lemma dw_inside phi : 0 < phi < PI -> inside 2 r (1 / 2) 3 phi.
Proof. intros H. unfold inside. repeat split; try lra; lia. Qed.
Lemma dw_chord : 0 < chord.
Proof.
  pose proof (lossF_unit o _ _ _ _ _ (dw_inside v Hv)). destruct q2_sqr as (_ & Q). pose proof PI_RGT_0. unfold chord, half_chord. fold o.
  apply Rmult_lt_0_compat; [|lra]. apply Rmult_lt_0_compat; [|lra]. apply Rmult_lt_0_compat; lra.
Qed.
Lemma dw_errf phi : errf rt sc 0 (Fin phi) = out_fzero (inductionFactors o 2 (Fin r) (Fin chord) (Fin (1 / 2)) (Fin 3) (Fin phi) (Fin 0) (Fin 1) (Fin U) (Fin lam)).
Proof.
  unfold errf. cbn [bem_loop]. unfold bem_pass. cbn [rt sc s_Vx s_Vy s_theta s_chord s_r s_af rt_pitch rt_rho rt_mu rt_opts rt_B rt_Rhub rt_Rtip ofR fl_arith].
  destruct (relativeWind _ _ _ _ _ _ _ _ _ _) as ((al & W) & Re). unfold drag_af.
  destruct (inductionFactors _ _ _ _ _ _ _ _ _ _ _) as ((fz & a) & ap). reflexivity.
Qed.
Lemma dw_nan phi : 0 < phi < PI -> errf rt sc 0 (Fin (- phi)) = NaN.
Proof. intros H. rewrite dw_errf. apply residual_nan; try lra; [lia|auto]. Qed.
Lemma dw_loading phi : 0 < phi < PI -> 0 <= loading o 2 r chord (1 / 2) 3 phi 0 1.
Proof.
  intros H. pose proof (lossF_unit o _ _ _ _ _ (dw_inside phi H)). assert (0 < sin phi) by (apply sin_gt_0; lra). pose proof dw_chord.
  unfold loading, coef_n. apply Rmult_le_pos; [apply Rmult_le_pos; [apply solidity_pos; [lia|lra|lra]|destruct (useCd o); lra]|].
  left. apply Rinv_0_lt_compat. apply Rmult_lt_0_compat; [lra|apply pow_lt; assumption].
Qed.
Lemma dw_rep phi : 0 < phi < PI -> cos phi <> 0 -> rep (errf rt sc 0 (Fin phi)) (out_fzero (inductionFactors o 2 r chord (1 / 2) 3 phi 0 1 U lam)).
Proof.
  intros H1 H2. rewrite dw_errf. pose proof (dw_loading phi H1).
  apply fzero_transfer; try apply rep_Fin; try assumption; try lra. apply dw_inside. exact H1.
Qed.
Lemma dw_cos : cos v <> 0.
Proof. destruct q2_sqr as (_ & Q). destruct Hc; lra. Qed.
Lemma dw_k : loading o 2 r chord (1 / 2) 3 v 0 1 = kap /\ loading_t o 2 r chord (1 / 2) 3 v 0 1 = - kap.
Proof.
  pose proof (lossF_unit o _ _ _ _ _ (dw_inside v Hv)) as HF. destruct q2_sqr as (Q2 & Q). pose proof PI_RGT_0. pose proof dw_cos as C0.
  assert (S : solidity 2 chord r = 2 * lossF o 2 r (1 / 2) 3 v * q2) by (unfold solidity, chord, half_chord; fold o; cbn [INR]; field; lra).
  unfold loading, loading_t, coef_n, coef_t. rewrite S, Hs. change (useCd o) with u. unfold kap. destruct u; split.
  - replace (q2 ^ 2) with (1 / 2) by (rewrite <- Q2; ring).
    transitivity (q2 * q2); [field; lra|exact Q2].
  - field. repeat split; lra.
  - field. lra.
  - field. repeat split; lra.
Qed.
Lemma dw_ind : inductionFactors o 2 r chord (1 / 2) 3 v 0 1 U lam = ((1 + kap) * (q2 - cos v / (lam / U)), kap / (1 + kap), - kap / (1 + kap)).
Proof.
  pose proof dw_cos as C0. rewrite ind_pos by (apply dw_inside; exact Hv). rewrite kp_spec by (assumption || (apply dw_inside; exact Hv)).
  destruct dw_k as (-> & ->). change (wakerotation o) with true. cbv iota. rewrite axial_low by (unfold kap; destruct u; lra). rewrite Hs.
  assert (0 <= kap) by (unfold kap; destruct u; lra).
  repeat apply (f_equal2 pair); field; lra.
Qed.

Lemma dw_loads : exists l N T, bind (loads rt (Fin v) true sc) (nan_guard true) = Ok l /\ rep (o_Np l) N /\ rep (o_Tp l) (- cos v * T) /\ 0 < T.
Proof.
  pose proof dw_cos as C0. destruct q2_sqr as (Q2 & Q). assert (K0 : 0 <= kap <= 1 / 2) by (unfold kap; destruct u; lra).
  destruct dw_k as (K1 & K2). pose proof (dw_loading v Hv) as HL.
  destruct (ind_transfer_rep o 2 r chord (1 / 2) 3 v 0 1 U lam _ _ _ _ _ _ _ _ _ _ _ _ (rep_Fin _) (rep_Fin _) (rep_Fin _) (rep_Fin _) (rep_Fin _)
    (rep_Fin 0) (rep_Fin 1) (rep_Fin _) (rep_Fin _) (dw_inside v Hv) C0 HU ltac:(lra) ltac:(lra) ltac:(rewrite K2; lra) dw_ind) as (fz & a & ap & E & _ & Qa & Qap).
  unfold loads. cbn [sc s_Vx s_Vy neq ofR fl_arith].
  replace (feq (Fin U) (Fin 0)) with false by (symmetry; cbn; apply reqb_false; lra).
  replace (feq (Fin lam) (Fin 0)) with false by (symmetry; cbn; apply reqb_false; lra). cbn [negb andb].
  assert (EP : runBEM rt sc (Fin v) = Ok (fz, a, ap, Fin 0, Fin 1)).
  { unfold runBEM. change (rt_iterRe rt) with 1%nat. cbv iota. f_equal. cbn [bem_loop]. unfold bem_pass.
    cbn [rt sc s_Vx s_Vy s_theta s_chord s_r s_af rt_pitch rt_rho rt_mu rt_opts rt_B rt_Rhub rt_Rtip ofR fl_arith].
    destruct (relativeWind _ _ _ _ _ _ _ _ _ _) as ((al & W) & Re). unfold drag_af. rewrite E. reflexivity. }
  fold sc. rewrite EP. cbn [bind].
  pose proof (rel_transfer v (kap / (1 + kap)) (- kap / (1 + kap)) U lam 0 chord 0 1 0 _ _ _ _ _ (Fin p) (Fin chord) (Fin 0) (Fin 1) (Fin 1)
     (rep_Fin v) Qa Qap (rep_Fin U) (rep_Fin lam) C0 ltac:(lra)) as QW.
  cbn [sc s_Vx s_Vy s_chord s_theta rt rt_pitch rt_rho rt_mu].
  destruct (relativeWind (Fin v) a ap (Fin U) (Fin lam) (Fin p) (Fin chord) (Fin 0) (Fin 1) (Fin 1)) as ((al & W) & Re). cbn [fst snd] in QW.
  match type of QW with rep _ ?x => set (w := x) in * end.
  assert (Hw : 0 < w).
  { unfold w, relativeWind. cbn [fst snd]. cbn [nmul ndiv nsub nadd nabs nsqrt nlt ofR R_arith].
    assert (A1 : Rabs (kap / (1 + kap)) <= 10) by (unfold kap; destruct u; apply Rabs_le; lra).
    assert (A2 : Rabs (- kap / (1 + kap)) <= 10) by (unfold kap; destruct u; apply Rabs_le; lra).
    replace (rltb 10 (Rabs (kap / (1 + kap)))) with false by (symmetry; apply rltb_false; lra).
    replace (rltb 10 (Rabs (- kap / (1 + kap)))) with false by (symmetry; apply rltb_false; lra).
    apply sqrt_lt_R0. assert (P : 0 < lam * (1 + - kap / (1 + kap))) by (apply Rmult_lt_0_compat; [lra|]; unfold kap; destruct u; lra).
    pose proof (Rle_0_sqr (U * (1 - kap / (1 + kap)))) as S1. unfold Rsqr in S1. pose proof (Rmult_lt_0_compat _ _ P P). lra. }
  cbn [nmul nsub nadd ncos nsin ofR fl_arith].
  match goal with |- context [mkLoad a ap ?n ?t' _ _ _ _ _ _ _ _] => set (Np := n); set (Tp := t') end.
  assert (QN : rep Np ((0 * cos v + 1 * sin v) * (1 / 2 * 1 * (w * w)) * chord)) by (unfold Np; reps).
  assert (QT : rep Tp ((0 * sin v - 1 * cos v) * (1 / 2 * 1 * (w * w)) * chord)) by (unfold Tp; reps).
  cbn [bind]. unfold nan_guard. cbn [o_Np]. change (isnan _) with (isnan Np). rewrite (rep_isnan _ _ QN).
  exists (mkLoad a ap Np Tp (rad2deg al) (Fin 0) (Fin 1) (fadd (fmul (Fin 0) (fcos (Fin v))) (fmul (Fin 1) (fsin (Fin v))))
    (fsub (fmul (Fin 0) (fsin (Fin v))) (fmul (Fin 1) (fcos (Fin v)))) (fmul (fmul (Fin (1 / 2)) (Fin 1)) (fmul W W)) W Re).
  do 2 eexists. split; [reflexivity|]. cbn [o_Np o_Tp]. split; [exact QN|].
  replace ((0 * sin v - 1 * cos v) * (1 / 2 * 1 * (w * w)) * chord) with (- cos v * (1 / 2 * (w * w) * chord)) in QT by ring.
  split; [exact QT|]. pose proof dw_chord. apply Rmult_lt_0_compat; [|assumption]. pose proof (Rmult_lt_0_compat _ _ Hw Hw). lra.
Qed.

(** If the probe is rejected the station carries no load. *)
Lemma dw_none npi : 0 < v < PI -> q2 - cos v / (lam / U) <> 0 ->
  exists l, solve_station npi (probe v) rt true sc = Ok l /\ rep (o_Np l) 0 /\ rep (o_Tp l) 0.
Proof.
  intros _ Hz. unfold solve_station. change (rt_iterRe rt) with 1%nat. cbv iota.
  assert (S : solve npi (probe v) (errf rt sc 0) = Ok (Fin 0)).
  { unfold solve. destruct (bracket npi (errf rt sc 0)) as [lo hi].
    pose proof (dw_rep v Hv dw_cos) as Q. rewrite dw_ind in Q. unfold out_fzero in Q. cbn [fst] in Q.
    rewrite (probe_misses v _ lo hi _ Q); [reflexivity|]. assert (0 <= kap) by (unfold kap; destruct u; lra). apply Rmult_integral_contrapositive. split; [lra|exact Hz]. }
  rewrite S. cbn [bind]. unfold loads. cbn [sc s_Vx s_Vy neq ofR fl_arith].
  replace (feq (Fin U) (Fin 0)) with false by (symmetry; cbn; apply reqb_false; lra).
  replace (feq (Fin lam) (Fin 0)) with false by (symmetry; cbn; apply reqb_false; lra). cbn [negb andb].
  unfold runBEM. change (rt_iterRe rt) with 1%nat. cbv iota. fold sc. cbn [bind].
  destruct (bem_loop rt sc (Fin 0) 0) as ((((fz & a) & ap) & cl) & cd) eqn:EL. cbn [bind].
  destruct (loop_coefficients _ _ _ _ _ _ _ _ _ EL) as (_ & EI).
  assert (ap = NaN) by (eapply zero_angle_ap; [|exact EI]; reflexivity). subst ap.
  pose proof (nan_wind (Fin 0) a (s_Vx sc) (s_Vy sc) (rt_pitch rt) (s_chord sc) (s_theta sc) (rt_rho rt) (rt_mu rt)) as N.
  change (s_Vx sc) with (Fin U) in N |- *. change (s_Vy sc) with (Fin lam) in N |- *.
  destruct (relativeWind (Fin 0) a NaN (Fin U) (Fin lam) (rt_pitch rt) (s_chord sc) (s_theta sc) (rt_rho rt) (rt_mu rt)) as ((al & W) & Re). cbn [fst snd] in N. subst W.
  cbn [nmul nsub nadd ncos nsin ofR fl_arith bind]. unfold nan_guard. cbn [o_Np]. 
  assert (EN : forall x y c, fmul (fmul x (fmul y (fmul NaN NaN))) c = NaN) by (intros x y c; nan; reflexivity). rewrite !EN.
  cbn [isnan neq fl_arith feq negb]. eexists. split; [reflexivity|]. cbn [o_Np o_Tp]. split; apply rep_Fin.
Qed.
End Station.

(** Wind from the front, at 45 degrees: the first bracket. *)
Lemma front_drag npi p : 3 < npi < PI ->
  solve npi (probe (PI / 4)) (errf (mkRotor (Fin (1 / 2)) (Fin 3) 2 (Fin 1) (Fin 1) (full false) 1 (Fin p)) (mkSect (Fin 1) (Fin (half_chord false (PI / 4) 1)) (Fin 0) drag_af (Fin 1) (Fin 1)) 0) = Ok (Fin (PI / 4)).
Proof.
  intros Hn. pose proof PI2_1 as HP. destruct q2_sqr as (Q2 & Q). assert (S4 : sin (PI / 4) = q2) by (rewrite sin_PI4; reflexivity). assert (C4 : cos (PI / 4) = q2) by (rewrite cos_PI4; reflexivity).
  set (f := errf _ _ 0).
  assert (FR : forall phi, 0 < phi < PI -> cos phi <> 0 -> rep (f (Fin phi)) (sin phi - cos phi)).
  { intros phi H1 H2. pose proof (dw_rep false (PI / 4) 1 1 1 p ltac:(lra) ltac:(lra) ltac:(lra) ltac:(lra) phi H1 H2) as R1.
    rewrite ind_pos in R1 by (apply (dw_inside 1); lra). rewrite kp_spec in R1 by (assumption || (apply (dw_inside 1); lra)).
    unfold out_fzero in R1. cbn [fst wakerotation full] in R1. unfold loading, loading_t, coef_n, coef_t in R1. cbn [useCd full] in R1.
    match type of R1 with context [axial_pos (_ * (?x + 0) / _) _] => replace (x + 0) with 0 in R1 by ring end.
    match type of R1 with context [1 - _ * (?x - 0) / _] => replace (x - 0) with 0 in R1 by ring end.
    unfold Rdiv in R1. rewrite !Rmult_0_r, !Rmult_0_l in R1. rewrite axial_low in R1 by lra.
    replace (sin phi - cos phi) with (sin phi * / (1 - 0 / (1 + 0)) - cos phi * / (1 * / 1) * (1 - 0)) by (field; lra). exact R1. }
  destruct eps_trig as ((S0 & S1) & C0 & C1). destruct (half_trig npi Hn) as ((C2 & C3) & S2 & S3).
  assert (Ne : neg (f (Fin (1 / 1000000)))) by (eapply rep_neg_sign; [apply FR; [lra|unfold eps in *; lra]|unfold eps in *; lra]).
  assert (Ph : pos (f (Fin (npi / 2)))) by (eapply rep_pos; [apply FR; lra|lra]).
  assert (Ns : forall y, pos y -> neg y -> False).
  { intros y [->|(w & -> & H1)] [E|(w' & E & H2)]; try discriminate E. injection E; intros <-. lra. }
  destruct (documented_bracket_exists npi f) as (lo & hi & D & E). unfold solve. rewrite E.
  assert (NS : ~ same_strict_sign (f (Fin (1 / 1000000))) (f (Fin (npi / 2)))) by (intros [[P1 P2]|[P1 P2]]; [exact (Ns _ P1 Ne)|exact (Ns _ Ph P2)]).
  destruct D as [HS|HS HN HP'|HS HN]; [|contradiction|contradiction].
  rewrite probe_finds; [reflexivity| |pose proof PI_below; lra].
  pose proof (FR (PI / 4) ltac:(lra) ltac:(lra)) as Z. rewrite S4, C4, Rminus_diag_eq in Z by reflexivity. exact Z.
Qed.

(** Wind from behind: the bracket beyond 90 degrees. *)
Lemma behind_drag npi p : 3 < npi < PI ->
  solve npi (probe (3 * (PI / 4))) (errf (mkRotor (Fin (1 / 2)) (Fin 3) 2 (Fin 1) (Fin 1) (full true) 1 (Fin p)) (mkSect (Fin 1) (Fin (half_chord true (3 * (PI / 4)) 1)) (Fin 0) drag_af (Fin (-1)) (Fin 1)) 0) = Ok (Fin (3 * (PI / 4))).
Proof.
  intros Hn. pose proof PI2_1 as HP. pose proof PI_below as HPb. destruct q2_sqr as (Q2 & Q).
  assert (S4 : sin (3 * (PI / 4)) = q2) by (rewrite sin_3PI4; reflexivity).
  assert (C4 : cos (3 * (PI / 4)) = - q2) by (rewrite cos_3PI4; unfold q2; field; apply Rgt_not_eq, sqrt_lt_R0; lra).
  assert (Hv : 0 < 3 * (PI / 4) < PI) by lra.
  assert (CH := dw_chord true (3 * (PI / 4)) 1 ltac:(lra) Hv).
  set (f := errf _ _ 0).
  assert (FP : forall phi, 0 < phi < PI -> 0 < cos phi -> pos (f (Fin phi))).
  { intros phi H1 H2. eapply rep_pos; [apply (dw_rep true (3 * (PI / 4)) 1 (-1) 1 p ltac:(lra) Hv ltac:(lra) ltac:(lra) phi H1 ltac:(lra))|].
    apply drag_no_zero; [apply (dw_inside 1); lra|lra|lra|lra|lra]. }
  destruct eps_trig as ((S0 & S1) & C0 & C1). unfold eps in *. destruct (half_trig npi Hn) as ((C2 & C3) & S2 & S3).
  pose proof (FP (1 / 1000000) ltac:(lra) ltac:(lra)) as Pe. pose proof (FP (npi / 2) ltac:(lra) ltac:(lra)) as Ph.
  destruct (documented_bracket_exists npi f) as (lo & hi & D & E). unfold solve. rewrite E.
  destruct D as [HS|HS HN HP'|HS HN].
  - exfalso. exact (HS (or_introl (conj Pe Ph))).
  - exfalso. replace (- npi / 4) with (- (npi / 4)) in HN by field. unfold f in HN.
    rewrite (dw_nan true (3 * (PI / 4)) 1 (-1) 1 p ltac:(lra)) in HN by lra. destruct HN as [H|(x & H & _)]; discriminate H.
  - rewrite probe_finds; [reflexivity| |lra].
    pose proof (dw_rep true (3 * (PI / 4)) 1 (-1) 1 p ltac:(lra) Hv ltac:(lra) ltac:(lra) _ Hv ltac:(lra)) as Z.
    rewrite dw_ind in Z by (lra || auto). unfold out_fzero in Z. cbn [fst] in Z. rewrite C4 in Z. 
    replace ((1 + 1 / 2) * (q2 - - q2 / (1 / -1))) with 0 in Z by field. exact Z.
Qed.

(** ** Two stations, radius 3, rotating at one radian per second *)
Definition drag_args (u : bool) (v : R) : args :=
  mkArgs [1; 2] [half_chord u v 1; half_chord u v 2] [0; 0] [drag_af; drag_af] (1 / 2) 3 2 1 1 0 0 0 0 80 8 None 0 None 0 (full u) 1.
Definition drag_blade (u : bool) (v : R) : blade :=
  mkBlade [1; 2] [half_chord u v 1; half_chord u v 2] [Fin 0; Fin 0] [drag_af; drag_af] (1 / 2) 3 2 1 1 0 0 0 0 80 (full u) 1 [0; 0] 0 [0; 0] 0 3 1 false [] [] [] 0.

Section Rotor.
Variables (u : bool) (v : R).
Let g := drag_args u v.
Let b := drag_blade u v.
Lemma dr_construct : construct g = Ok b.
Proof.
  unfold construct. cbn [g_r g drag_args length Nat.ltb Nat.leb g_precurve g_presweep map curve_error tip_error Nat.eqb andb negb].
  cbn [g drag_args g_chord g_theta g_af g_Rhub g_Rtip g_B g_rho g_mu g_precone g_tilt g_yaw g_shearExp g_hubHt g_nSector g_precurveTip
       g_presweepTip g_opts g_iterRe hd last map].
  rewrite !radians_0, cos_0, sin_0.
  pose proof (interp_zeros g d_increasing ltac:(simpl; lia) (nd_tip (r_nd [1; 2]))) as Z.
  cbn [g g_r drag_args map] in Z. rewrite Z.
  replace (reqb (1 / 2) 1) with false by (symmetry; apply reqb_false; lra).
  replace (reqb 3 2) with false by (symmetry; apply reqb_false; lra).
  replace (reqb 0 0) with true by (symmetry; apply reqb_true; reflexivity).
  cbn [andb set_last removelast app]. unfold b, drag_blade. replace (3 * 1 + 0 * 0) with 3 by ring. reflexivity.
Qed.
Lemma dr_disc : flat_disc g.
Proof.
  unfold flat_disc. cbn. refine (conj eq_refl (conj eq_refl (conj eq_refl (conj eq_refl (conj eq_refl (conj eq_refl (conj d_increasing _))))))).
  split; [lra|]. split; [lra|lia].
Qed.
Lemma dr_flat : flat b.
Proof. exact (proj1 (flat_construct g b dr_construct dr_disc)). Qed.

Lemma dr_station npi bq U p az i r c : nth_error [1; 2] i = Some r -> nth_error (g_chord g) i = Some c ->
  station_i npi bq b p (30 / PI) (wind b U (30 / PI) az) i =
  bind (solve_station npi bq (mkRotor (Fin (1 / 2)) (Fin 3) 2 (Fin 1) (Fin 1) (full u) 1 (Fin p)) true
         (mkSect (Fin r) (Fin c) (Fin 0) drag_af (Fin U) (Fin r))) (fun l => Ok (Fin 0, l)).
Proof.
  intros Hi Hc. assert (Li : (i < 2)%nat) by (change 2%nat with (length [1; 2]); apply nth_error_Some; rewrite Hi; discriminate).
  pose proof PI_RGT_0 as HP. assert (HO : 30 / PI <> 0) by (apply Rgt_not_eq, Rdiv_lt_0_compat; lra).
  destruct (flat_wind b U (30 / PI) az i dr_flat Li) as (W1 & W2). change (b_r b) with [1; 2] in W2.
  replace (nth i [1; 2] 0) with r in W2 by (symmetry; exact (nth_error_nth _ _ _ Hi)).
  replace (30 / PI * PI / 30 * r) with r in W2 by (field; lra).
  unfold station_i. cbv zeta. rewrite W1, W2. replace (reqb (30 / PI) 0) with false by (symmetry; apply reqb_false; exact HO). cbn [negb].
  cbn [b drag_blade b_r b_chord b_af b_theta b_inverse]. unfold pyget. cbn [g drag_args g_chord] in Hc. rewrite Hi, Hc. destruct i as [|[|i]]; [| |lia]; reflexivity.
Qed.

Lemma dr_evaluate npi bq U p (l0 l1 : sload fl) N0 N1 T0 T1 :
  solve_station npi bq (mkRotor (Fin (1 / 2)) (Fin 3) 2 (Fin 1) (Fin 1) (full u) 1 (Fin (radians p))) true (mkSect (Fin 1) (Fin (half_chord u v 1)) (Fin 0) drag_af (Fin U) (Fin 1)) = Ok l0 ->
  solve_station npi bq (mkRotor (Fin (1 / 2)) (Fin 3) 2 (Fin 1) (Fin 1) (full u) 1 (Fin (radians p))) true (mkSect (Fin 2) (Fin (half_chord u v 2)) (Fin 0) drag_af (Fin U) (Fin 2)) = Ok l1 ->
  rep (o_Np l0) N0 -> rep (o_Np l1) N1 -> rep (o_Tp l0) T0 -> rep (o_Tp l1) T1 ->
  section_loads npi bq b U (30 / PI) p 0 = Ok [l0; l1] /\
  exists b' y w, evaluate npi bq b [(U, 30 / PI, p)] = Ok (b', [Some y], w) /\ y_P y = 3 / 2 * T0 + 4 * T1.
Proof.
  intros S0 S1 QN0 QN1 QT0 QT1.
  assert (SL : forall az, section_loads npi bq b U (30 / PI) p az = Ok [l0; l1]).
  { intros az. unfold section_loads, distributedAeroLoads. change (shapes_ok b) with true. cbn [negb]. cbv zeta.
    change (seq 0 (length (b_r b))) with [0%nat; 1%nat]. cbn [mapM].
    rewrite (dr_station npi bq U (radians p) (radians az) 0 1 (half_chord u v 1) eq_refl eq_refl), S0. cbn [bind].
    rewrite (dr_station npi bq U (radians p) (radians az) 1 2 (half_chord u v 2) eq_refl eq_refl), S1. reflexivity. }
  split; [apply SL|].
  assert (E : exists b' y w, evaluate npi bq b [(U, 30 / PI, p)] = Ok (b', [Some y], w)).
  { rewrite (evaluate_forward npi bq b U (30 / PI) p eq_refl ltac:(cbn; lia)). change (b_nSector b) with 1%nat.
    match goal with |- context [mapM ?F (azimuths 1)] => replace (mapM F (azimuths 1)) with (Ok [[l0; l1]]) end.
    2:{ unfold azimuths. cbn [seq map mapM]. rewrite SL. reflexivity. }
    cbn [bind].
    destruct (fold_finite b (combine (azimuths 1) [[l0; l1]])) with (u := tot0) as (t & ->).
    - unfold azimuths. cbn [seq map combine]. constructor; [|constructor]. exists [N0; N1], [T0; T1]. cbn [snd map]. split; apply fvals_two; assumption.
    - cbn [option_map]. do 3 eexists. reflexivity. }
  destruct E as (b' & y & w & E). exists b', y, w. split; [exact E|].
  destruct (flat_power npi bq b _ _ _ _ 0 _ _ _ _ dr_flat E eq_refl eq_refl) as (ls & Np & Tp & SL' & F & ->).
  rewrite SL in SL'. apply ok_inj in SL'. subst ls. inversion F as [|? t0 ? ? F0 F1]; subst. inversion F1 as [|? t1 ? ? F2 F3]; subst. inversion F3; subst.
  assert (t0 = T0) by (unfold rep in *; congruence). assert (t1 = T1) by (unfold rep in *; congruence). subst t0 t1.
  rewrite flat_moment by exact dr_flat. change (length (b_r b)) with 2%nat. cbn [Nat.add trapz]. unfold full_r, pad. cbn. pose proof PI_RGT_0. field. lra.
Qed.
End Rotor.

Lemma front_braked npi p : 3 < npi < PI ->
  exists b' y w, evaluate npi (probe (PI / 4)) (drag_blade false (PI / 4)) [(1, 30 / PI, p)] = Ok (b', [Some y], w) /\ y_P y < 0.
Proof.
  intros Hn. pose proof PI_RGT_0. destruct q2_sqr as (Q2 & Q). assert (S4 : sin (PI / 4) = q2) by (rewrite sin_PI4; reflexivity). assert (C4 : cos (PI / 4) = q2) by (rewrite cos_PI4; reflexivity).
  destruct (dw_loads false (PI / 4) 1 1 1 (radians p) ltac:(lra) ltac:(lra) S4 (or_introl C4) ltac:(lra) ltac:(lra)) as (l0 & N0 & T0 & E0 & QN0 & QT0 & HT).
  destruct (dw_none false (PI / 4) 2 1 2 (radians p) ltac:(lra) ltac:(lra) S4 (or_introl C4) ltac:(lra) ltac:(lra) npi ltac:(lra) ltac:(rewrite C4; lra)) as (l1 & E1 & QN1 & QT1).
  destruct (dr_evaluate false (PI / 4) npi (probe (PI / 4)) 1 p l0 l1 N0 0 (- cos (PI / 4) * T0) 0) as (_ & b' & y & w & E & EP); try assumption.
  - unfold solve_station. cbn [rt_iterRe]. rewrite front_drag by exact Hn. exact E0.
  - exists b', y, w. split; [exact E|]. rewrite EP, C4. nra.
Qed.
Lemma behind_driven npi p : 3 < npi < PI ->
  exists b' y w, evaluate npi (probe (3 * (PI / 4))) (drag_blade true (3 * (PI / 4))) [(-1, 30 / PI, p)] = Ok (b', [Some y], w) /\ 0 < y_P y.
Proof.
  intros Hn. pose proof PI_RGT_0. destruct q2_sqr as (Q2 & Q). assert (S4 : sin (3 * (PI / 4)) = q2) by (rewrite sin_3PI4; reflexivity).
  assert (C4 : cos (3 * (PI / 4)) = - q2) by (rewrite cos_3PI4; unfold q2; field; apply Rgt_not_eq, sqrt_lt_R0; lra).
  destruct (dw_loads true (3 * (PI / 4)) 1 (-1) 1 (radians p) ltac:(lra) ltac:(lra) S4 (or_intror C4) ltac:(lra) ltac:(lra)) as (l0 & N0 & T0 & E0 & QN0 & QT0 & HT).
  destruct (dw_none true (3 * (PI / 4)) 2 (-1) 2 (radians p) ltac:(lra) ltac:(lra) S4 (or_intror C4) ltac:(lra) ltac:(lra) npi ltac:(lra) ltac:(rewrite C4; lra)) as (l1 & E1 & QN1 & QT1).
  destruct (dr_evaluate true (3 * (PI / 4)) npi (probe (3 * (PI / 4))) (-1) p l0 l1 N0 0 (- cos (3 * (PI / 4)) * T0) 0) as (_ & b' & y & w & E & EP); try assumption.
  - unfold solve_station. cbn [rt_iterRe]. rewrite behind_drag by exact Hn. exact E0.
  - exists b', y, w. split; [exact E|]. rewrite EP, C4. nra.
Qed.
