(** Lemmas about one blade station: bracket choice, failed solves, zero wind. *)
From Coq Require Import Reals Bool Arith List Lra Lia.
From Verif Require Import Prelim Num Bem Blade BladeSpec FlProofs IndSpec IndProofs.
Import ListNotations.
Open Scope R_scope.

Lemma pos_flt x : flt (Fin 0) x = true <-> pos x.
Proof.
  unfold pos. destruct x; simpl.
  - split.
    + intros H; rb_hyps. right. exists x. auto.
    + intros [H|[v [H Hv]]]; [discriminate|]. injection H; intros; subst. apply rltb_true; lra.
  - split; [intros H; rb_hyps; lra|]. intros [H|[v [H Hv]]]; discriminate.
  - split; auto.
  - split; [discriminate|]. intros [H|[v [H Hv]]]; discriminate.
  - split; [discriminate|]. intros [H|[v [H Hv]]]; discriminate.
Qed.

Lemma neg_flt x : flt x (Fin 0) = true <-> neg x.
Proof.
  unfold neg. destruct x; simpl.
  - split.
    + intros H; rb_hyps. right. exists x. auto.
    + intros [H|[v [H Hv]]]; [discriminate|]. injection H; intros; subst. apply rltb_true; lra.
  - split; [intros H; rb_hyps; lra|]. intros [H|[v [H Hv]]]; discriminate.
  - split; [discriminate|]. intros [H|[v [H Hv]]]; discriminate.
  - split; auto.
  - split; [discriminate|]. intros [H|[v [H Hv]]]; discriminate.
Qed.

Lemma pos_Fin v : pos (Fin v) <-> 0 < v.
Proof. rewrite <- pos_flt; simpl. apply rltb_true. Qed.
Lemma neg_Fin v : neg (Fin v) <-> v < 0.
Proof. rewrite <- neg_flt; simpl. apply rltb_true. Qed.
Lemma pos_NZ : ~ pos NZ.
Proof. intros [H|[v [H Hv]]]; discriminate. Qed.
Lemma neg_NZ : ~ neg NZ.
Proof. intros [H|[v [H Hv]]]; discriminate. Qed.
Lemma pos_NaN : ~ pos NaN.
Proof. intros [H|[v [H Hv]]]; discriminate. Qed.
Lemma neg_NaN : ~ neg NaN.
Proof. intros [H|[v [H Hv]]]; discriminate. Qed.
Lemma pos_NInf : ~ pos NInf.
Proof. intros [H|[v [H Hv]]]; discriminate. Qed.
Lemma neg_PInf : ~ neg PInf.
Proof. intros [H|[v [H Hv]]]; discriminate. Qed.
Lemma pos_PInf : pos PInf.
Proof. left; reflexivity. Qed.
Lemma neg_NInf : neg NInf.
Proof. left; reflexivity. Qed.

Lemma mul_pos_iff x y : 0 < x * y <-> (0 < x /\ 0 < y) \/ (x < 0 /\ y < 0).
Proof.
  split.
  - intros H. destruct (Rtotal_order x 0) as [H1|[H1|H1]].
    + right. split; [assumption|]. nra.
    + subst. rewrite Rmult_0_l in H. lra.
    + left. split; [assumption|]. nra.
  - intros [[H1 H2]|[H1 H2]]; nra.
Qed.

Lemma product_sign x y : flt (Fin 0) (fmul x y) = true <-> same_strict_sign x y.
Proof.
  rewrite pos_flt. unfold same_strict_sign.
  pose proof pos_NZ; pose proof neg_NZ; pose proof pos_NaN; pose proof neg_NaN.
  pose proof pos_PInf; pose proof neg_PInf; pose proof pos_NInf; pose proof neg_NInf.
  assert (P0 : ~ pos (Fin 0)) by (rewrite pos_Fin; lra).
  assert (N0 : ~ neg (Fin 0)) by (rewrite neg_Fin; lra).
  destruct x as [x| | | |], y as [y| | | |]; simpl; try tauto;
    repeat match goal with
    | |- context [reqb ?z 0] => destruct (reqb z 0) eqn:?; rb_hyps; subst; simpl
    | |- context [rltb ?z 0] => destruct (rltb z 0) eqn:?; rb_hyps; simpl
    end; rewrite ?pos_Fin, ?neg_Fin in *; try rewrite mul_pos_iff; intuition lra.
Qed.

Lemma bracket_documented npi f lo hi : bracket npi f = (lo, hi) ->
  exists a b, lo = Fin a /\ hi = Fin b /\ documented_bracket npi f a b.
Proof.
  unfold bracket. cbn [ofR nlt nmul fl_arith]. intros H.
  destruct (flt (Fin 0) (fmul (f (Fin eps)) (f (Fin (npi / 2))))) eqn:E1.
  - apply product_sign in E1.
    destruct (andb (flt (f (Fin (- npi / 4))) (Fin 0)) (flt (Fin 0) (f (Fin (- eps))))) eqn:E2.
    + apply andb_prop in E2. destruct E2 as [E2 E3]. apply neg_flt in E2. apply pos_flt in E3.
      injection H; intros <- <-. eexists; eexists. split; [reflexivity|]. split; [reflexivity|].
      constructor 2; assumption.
    + injection H; intros <- <-. eexists; eexists. split; [reflexivity|]. split; [reflexivity|].
      constructor 3; [assumption|]. intros [N P]. apply neg_flt in N. apply pos_flt in P.
      change (- (1 / 1000000)) with (- eps) in P. rewrite N, P in E2. discriminate.
  - injection H; intros <- <-. eexists; eexists. split; [reflexivity|]. split; [reflexivity|].
    constructor 1. intros S. apply product_sign in S. change (1 / 1000000) with eps in S. congruence.
Qed.

Lemma documented_bracket_fun p f a b a' b' :
  documented_bracket p f a b -> documented_bracket p f a' b' -> a = a' /\ b = b'.
Proof. intros H H'. destruct H; inversion H'; subst; auto; tauto. Qed.

Lemma documented_bracket_exists p f : exists a b, documented_bracket p f a b /\ bracket p f = (Fin a, Fin b).
Proof.
  destruct (bracket p f) as [lo hi] eqn:E.
  destruct (bracket_documented _ _ _ _ E) as (a & b & -> & -> & H). eauto.
Qed.

Lemma documented_bracket_ordered p f a b : 1 / 10 < p -> documented_bracket p f a b -> a <= b.
Proof. intros Hp [ | | ]; intros; lra. Qed.

(** C20 *)
Lemma solve_bracket : forall npi (bq : rootfinder fl) f phi, 1 / 10 < npi -> root_inside bq ->
  solve npi bq f = Ok phi ->
  exists lo hi, documented_bracket npi f lo hi /\
    ((bq f (Fin lo) (Fin hi) = Ok phi /\ exists v, phi = Fin v /\ lo <= v <= hi) \/
     (bq f (Fin lo) (Fin hi) = Raise ValueError /\ phi = Fin 0)).
Proof.
  intros npi bq f phi Hp Hin H. destruct (documented_bracket_exists npi f) as (lo & hi & D & E).
  exists lo, hi. split; [assumption|]. unfold solve in H. rewrite E in H.
  destruct (bq f (Fin lo) (Fin hi)) as [x|e] eqn:Eq.
  - injection H; intros ->. left. split; [reflexivity|]. eapply Hin; [|eassumption].
    eapply documented_bracket_ordered; eauto.
  - destruct e; try discriminate. injection H; intros <-. right. auto.
Qed.

Lemma ok_inj {X} (a b : X) : Ok a = Ok b -> a = b.
Proof. intros H; injection H; auto. Qed.

Lemma bind_ok {X Y} (m : res X) (f : X -> res Y) y : bind m f = Ok y -> exists x, m = Ok x /\ f x = Ok y.
Proof. destruct m; simpl; intros H; [eauto|discriminate]. Qed.

Lemma alpha_rep (v t p : R) : rep (rad2deg (nsub (Fin v) (nadd (Fin t) (Fin p)))) (degrees (v - (t + p))).
Proof.
  unfold rad2deg, degrees. cbn [ofR nmul nsub nadd fl_arith].
  apply rep_mul; [|apply rep_Fin]. apply rep_sub; [apply rep_Fin|]. apply rep_add; apply rep_Fin.
Qed.

Lemma nan_guard_cases rot (l l' : sload fl) : nan_guard rot l = Ok l' ->
  (isnan (o_Np l) = false /\ l' = l) \/
  (isnan (o_Np l) = true /\ rot = true /\
   l' = mkLoad (Fin 0) (Fin 0) (Fin 0) (Fin 0) (Fin 0) (o_cl l) (o_cd l) (o_cn l) (o_ct l) (o_q l) (o_W l) (o_Re l)).
Proof.
  unfold nan_guard. destruct (isnan (o_Np l)); [destruct rot|]; intros H; try discriminate;
    injection H; intros <-; auto.
Qed.

Lemma rel_alpha {A} `{Arith A} phi a ap Vx Vy pitch chord theta rho mu :
  fst (fst (relativeWind phi a ap Vx Vy pitch chord theta rho mu)) = nsub phi (nadd theta pitch).
Proof. reflexivity. Qed.

Lemma loads_alpha rt phi rot (sc : sect fl) l : loads rt phi rot sc = Ok l ->
  l = zero_load \/ o_alpha l = rad2deg (nsub phi (nadd (s_theta sc) (rt_pitch rt))).
Proof.
  unfold loads. destruct (andb _ _); [|intros E; injection E; auto].
  intros E. apply bind_ok in E. destruct E as (((( a & ap) & cl) & cd) & _ & E).
  match type of E with context [relativeWind ?phi ?a ?ap ?Vx ?Vy ?p ?c ?t ?r ?m] =>
    pose proof (rel_alpha phi a ap Vx Vy p c t r m) as Ha;
    destruct (relativeWind phi a ap Vx Vy p c t r m) as ((alpha & W) & Re) end.
  apply ok_inj in E. right. rewrite <- E. cbn [o_alpha]. cbn [fst] in Ha. rewrite Ha. reflexivity.
Qed.

(** The angle of attack reported at a rotating station belongs to the accepted angle, or to the
    fallback angle 0, or the station reports zero loads. *)
Lemma station_angle : forall npi bq rt (sc : sect fl) m l t p, 1 / 10 < npi -> root_inside bq ->
  rt_iterRe rt = S m -> s_theta sc = Fin t -> rt_pitch rt = Fin p ->
  solve_station npi bq rt true sc = Ok l ->
  exists lo hi, documented_bracket npi (errf rt sc m) lo hi /\
   ((exists v, bq (errf rt sc m) (Fin lo) (Fin hi) = Ok (Fin v) /\ lo <= v <= hi /\
       (rep (o_alpha l) (degrees (v - (t + p))) \/ (o_Np l = Fin 0 /\ o_Tp l = Fin 0 /\ o_alpha l = Fin 0))) \/
    (bq (errf rt sc m) (Fin lo) (Fin hi) = Raise ValueError /\
       (rep (o_alpha l) (degrees (0 - (t + p))) \/ (o_Np l = Fin 0 /\ o_Tp l = Fin 0 /\ o_alpha l = Fin 0)))).
Proof.
  intros npi bq rt sc m l t p Hp Hin Hm Ht Hpi H. unfold solve_station in H. rewrite Hm in H.
  apply bind_ok in H. destruct H as (phi & H1 & H2). apply bind_ok in H2. destruct H2 as (l0 & H2 & H3).
  assert (HA : forall v, phi = Fin v ->
    rep (o_alpha l) (degrees (v - (t + p))) \/ (o_Np l = Fin 0 /\ o_Tp l = Fin 0 /\ o_alpha l = Fin 0)).
  { intros v ->. apply nan_guard_cases in H3. destruct H3 as [[_ ->]|[_ [_ ->]]]; [|right; auto].
    apply loads_alpha in H2. destruct H2 as [->|H2]; [right; auto|].
    left. rewrite H2, Ht, Hpi. apply alpha_rep. }
  destruct (solve_bracket _ _ _ _ Hp Hin H1) as (lo & hi & D & C). exists lo, hi. split; [assumption|].
  destruct C as [(C & v & -> & Hv)|(C & ->)].
  - left. exists v. auto.
  - right. auto.
Qed.

(** ** C21: with a loss correction on, the residual is NaN for every negative angle *)
Lemma fdiv_NaN_l x : fdiv NaN x = NaN.
Proof. destruct x; reflexivity. Qed.
Lemma fdiv_NaN_r x : fdiv x NaN = NaN.
Proof. destruct x; reflexivity. Qed.
Lemma fmul_NaN_l x : fmul NaN x = NaN.
Proof. destruct x; reflexivity. Qed.
Lemma fmul_NaN_r x : fmul x NaN = NaN.
Proof. destruct x; reflexivity. Qed.
Lemma fadd_NaN_l x : fadd NaN x = NaN.
Proof. destruct x; reflexivity. Qed.
Lemma fadd_NaN_r x : fadd x NaN = NaN.
Proof. destruct x; reflexivity. Qed.
Lemma fsub_NaN_l x : fsub NaN x = NaN.
Proof. apply fadd_NaN_l. Qed.
Lemma fsub_NaN_r x : fsub x NaN = NaN.
Proof. destruct x; reflexivity. Qed.
Ltac nan := rewrite ?fdiv_NaN_l, ?fdiv_NaN_r, ?fmul_NaN_l, ?fmul_NaN_r, ?fadd_NaN_l, ?fadd_NaN_r, ?fsub_NaN_l, ?fsub_NaN_r.

(** acos (exp (- x)) is NaN for x < 0. *)
Lemma acos_exp_nan x y : rep x y -> y < 0 -> facos (fexp (fneg x)) = NaN.
Proof.
  intros Hx Hy. apply rep_inv in Hx. destruct Hx as [->|[_ E]]; [|lra].
  simpl. destruct (reqb y 0) eqn:E; rb_hyps; [lra|]. simpl.
  assert (1 < exp (- y)) by (rewrite <- exp_0; apply exp_increasing; lra).
  destruct (rleb (exp (- y)) 1) eqn:E1; rb_hyps; [lra|]. rewrite andb_false_r. reflexivity.
Qed.

Lemma loss_arg_neg (B : nat) (d l phi : R) : (1 <= B)%nat -> 0 < d -> 0 < l -> 0 < phi < PI ->
  exists y, rep (fdiv (fmul (fdiv (Fin (INR B)) (Fin 2)) (Fin d)) (fmul (Fin l) (fsin (Fin (- phi))))) y /\ y < 0.
Proof.
  intros HB Hd Hl Hphi. assert (0 < sin phi) by (apply sin_gt_0; lra).
  assert (1 <= INR B) by (change 1 with (INR 1); apply le_INR; assumption).
  exists (INR B / 2 * d / (l * sin (- phi))). split.
  - apply rep_div.
    + apply rep_mul; [|apply rep_Fin]. apply rep_div; [apply rep_Fin|apply rep_Fin|lra].
    + apply rep_mul; [apply rep_Fin|]. apply rep_sin, rep_Fin.
    + rewrite sin_neg. assert (0 < l * sin phi) by (apply Rmult_lt_0_compat; assumption). nra.
  - rewrite sin_neg. replace (INR B / 2 * d / (l * - sin phi)) with (- (INR B * d / (2 * l * sin phi))) by (field; nz; lra).
    assert (0 < INR B * d / (2 * l * sin phi)); [|lra].
    apply Rdiv_lt_0_compat; [apply Rmult_lt_0_compat; lra|]. repeat apply Rmult_lt_0_compat; lra.
Qed.

Lemma residual_nan o B (r chord Rhub Rtip phi : R) cl cd Vx Vy : (1 <= B)%nat -> 0 < Rhub < r -> r < Rtip ->
  0 < phi < PI -> tipLoss o = true \/ hubLoss o = true ->
  out_fzero (inductionFactors o B (Fin r) (Fin chord) (Fin Rhub) (Fin Rtip) (Fin (- phi)) cl cd Vx Vy) = NaN.
Proof.
  intros HB [Hh Hr] Ht Hphi Hl.
  assert (EF : l_F (bem_locals o B (Fin r) (Fin chord) (Fin Rhub) (Fin Rtip) (Fin (- phi)) cl cd) = NaN).
  { unfold bem_locals. cbn [l_F nmul ndiv nsub nacos nexp nopp nsin ofR fl_arith].
    destruct (loss_arg_neg B (Rtip - r) r phi HB) as (y1 & R1 & N1); try lra; try assumption.
    destruct (loss_arg_neg B (r - Rhub) Rhub phi HB) as (y2 & R2 & N2); try lra; try assumption.
    replace (fsub (Fin Rtip) (Fin r)) with (Fin (Rtip - r)).
    2:{ unfold fsub, fneg. destruct (reqb r 0) eqn:E; rb_hyps; [lra|]. reflexivity. }
    replace (fsub (Fin r) (Fin Rhub)) with (Fin (r - Rhub)).
    2:{ unfold fsub, fneg. destruct (reqb Rhub 0) eqn:E; rb_hyps; [lra|]. reflexivity. }
    rewrite (acos_exp_nan _ _ R1 N1), (acos_exp_nan _ _ R2 N2).
    destruct Hl as [-> | ->]; nan; reflexivity. }
  assert (EK : l_k (bem_locals o B (Fin r) (Fin chord) (Fin Rhub) (Fin Rtip) (Fin (- phi)) cl cd) = NaN).
  { change (l_k ?L) with (ndiv (ndiv (ndiv (ndiv (nmul (l_sigma_p L) (l_cn L)) (ofR 4)) (l_F L)) (l_sphi L)) (l_sphi L)).
    rewrite EF. cbn [ndiv nmul ofR fl_arith]. nan. reflexivity. }
  unfold inductionFactors, out_fzero. cbn [fst].
  rewrite EK.
  assert (Ep : nlt (ofR 0) (Fin (- phi)) = false) by (cbn; apply rltb_false; lra). rewrite Ep.
  cbn [nsub nmul ofR fl_arith]. nan. reflexivity.
Qed.

Lemma errf_fzero (rt : rotor fl) sc m phi : exists cl cd,
  errf rt sc m phi = out_fzero (inductionFactors (rt_opts rt) (rt_B rt) (s_r sc) (s_chord sc) (rt_Rhub rt)
                          (rt_Rtip rt) phi cl cd (s_Vx sc) (s_Vy sc)).
Proof.
  assert (P : forall a ap, exists cl cd, fst (fst (fst (fst (bem_pass rt sc phi a ap)))) =
     out_fzero (inductionFactors (rt_opts rt) (rt_B rt) (s_r sc) (s_chord sc) (rt_Rhub rt)
                          (rt_Rtip rt) phi cl cd (s_Vx sc) (s_Vy sc))).
  { intros a ap. unfold bem_pass.
    destruct (relativeWind phi a ap _ _ _ _ _ _ _) as ((alpha & W) & Re).
    destruct (s_af sc alpha Re) as (cl & cd). exists cl, cd.
    destruct (inductionFactors _ _ _ _ _ _ _ cl cd _ _) as ((fz & a') & ap'). reflexivity. }
  unfold errf. destruct m as [|m]; cbn [bem_loop].
  - destruct (P (ofR 0) (ofR 0)) as (cl & cd & E). exists cl, cd. rewrite <- E.
    destruct (bem_pass _ _ _ _ _) as ((((fz & a) & ap) & c1) & c2). reflexivity.
  - destruct (bem_loop rt sc phi m) as ((((fz & a) & ap) & c1) & c2).
    destruct (P a ap) as (cl & cd & E). exists cl, cd. rewrite <- E.
    destruct (bem_pass _ _ _ _ _) as ((((fz' & a') & ap') & c1') & c2'). reflexivity.
Qed.

Lemma never_propeller_brake : forall npi (rt : rotor fl) (sc : sect fl) m r chord Rhub Rtip lo hi,
  1 / 10 < npi < PI -> (1 <= rt_B rt)%nat -> 0 < Rhub < r -> r < Rtip ->
  s_r sc = Fin r -> s_chord sc = Fin chord -> rt_Rhub rt = Fin Rhub -> rt_Rtip rt = Fin Rtip ->
  tipLoss (rt_opts rt) = true \/ hubLoss (rt_opts rt) = true ->
  documented_bracket npi (errf rt sc m) lo hi -> 0 < lo.
Proof.
  intros npi rt sc m r chord Rhub Rtip lo hi Hp HB Hr Ht Er Ec Eh Et Hl D.
  destruct D as [ | HS HN HP | ]; try lra. exfalso.
  destruct (errf_fzero rt sc m (Fin (- npi / 4))) as (cl & cd & E).
  rewrite Er, Ec, Eh, Et in E. replace (- npi / 4) with (- (npi / 4)) in E by lra.
  rewrite residual_nan in E by (assumption || lra).
  replace (- npi / 4) with (- (npi / 4)) in HN by lra. rewrite E in HN. exact (neg_NaN HN).
Qed.

(** ** C22: fallback angle 0 *)
Definition notfin (x : fl) : Prop := x = PInf \/ x = NInf \/ x = NaN.

Lemma div0_notfin x : notfin (fdiv x (Fin 0)).
Proof.
  unfold notfin, fdiv. destruct x; simpl.
  all: replace (reqb 0 0) with true by (symmetry; apply reqb_true; reflexivity).
  all: replace (rltb 0 0) with false by (symmetry; apply rltb_false; lra); simpl; auto.
  destruct (reqb x 0); [auto|]. destruct (rltb x 0); simpl; auto.
Qed.

Lemma div1_notfin x : notfin x -> notfin (fdiv x (Fin 1)).
Proof.
  intros [->|[->| ->]]; unfold notfin, fdiv; simpl;
    try (replace (rltb 1 0) with false by (symmetry; apply rltb_false; lra)); simpl; auto.
Qed.

Lemma over_one_minus x : notfin x -> fdiv x (fsub (Fin 1) x) = NaN.
Proof. intros [->|[->| ->]]; reflexivity. Qed.

Lemma zero_angle_ap o B r chord Rhub Rtip cl cd Vx Vy : wakerotation o = true ->
  out_ap (inductionFactors o B r chord Rhub Rtip (Fin 0) cl cd Vx Vy) = NaN.
Proof.
  intros Hw. unfold inductionFactors, out_ap. rewrite Hw. cbn [negb snd].
  change (l_kp ?L) with (ndiv (ndiv (ndiv (ndiv (nmul (l_sigma_p L) (l_ct L)) (ofR 4)) (l_F L)) (l_sphi L)) (l_cphi L)).
  unfold bem_locals. cbn [l_sphi l_cphi ndiv nsub nsin ncos ofR fl_arith fsin fcos].
  rewrite sin_0, cos_0. apply over_one_minus, div1_notfin, div0_notfin.
Qed.

Lemma zero_angle_a o B r chord Rhub Rtip cl cd Vx Vy :
  let a := out_a (inductionFactors o B r chord Rhub Rtip (Fin 0) cl cd Vx Vy) in a = Fin 0 \/ a = NaN.
Proof.
  cbv zeta. unfold inductionFactors, out_a. cbn [fst snd].
  assert (Ep : nlt (ofR 0) (Fin 0) = false) by (cbn; apply rltb_false; lra). rewrite Ep.
  assert (K : notfin (l_k (bem_locals o B r chord Rhub Rtip (Fin 0) cl cd))).
  { change (l_k ?L) with (ndiv (ndiv (ndiv (ndiv (nmul (l_sigma_p L) (l_cn L)) (ofR 4)) (l_F L)) (l_sphi L)) (l_sphi L)).
    unfold bem_locals. cbn [l_sphi ndiv nsin ofR fl_arith fsin]. rewrite sin_0. apply div0_notfin. }
  destruct K as [->|[->| ->]]; unfold axial_neg; cbn; auto.
  destruct (reqb 1 0); auto.
Qed.

Lemma zero_angle_W a ap Vx Vy pitch chord theta rho mu : (a = Fin 0 \/ a = NaN) -> ap = NaN ->
  snd (fst (relativeWind (Fin 0) a ap Vx Vy pitch chord theta rho mu)) = NaN.
Proof.
  intros Ha ->. unfold relativeWind. cbn [fst snd].
  assert (E : nlt (ofR 10) (nabs a) = false).
  { destruct Ha as [->| ->]; cbn; [|reflexivity]. rewrite Rabs_R0. apply rltb_false; lra. }
  rewrite E. cbn [nabs nlt fl_arith fabs ofR flt].
  cbn [nadd nmul nsub nsqrt fl_arith]. nan. reflexivity.
Qed.

Lemma pass_zero_angle (rt : rotor fl) sc a0 ap0 fz a ap cl cd : wakerotation (rt_opts rt) = true ->
  bem_pass rt sc (Fin 0) a0 ap0 = (fz, a, ap, cl, cd) -> (a = Fin 0 \/ a = NaN) /\ ap = NaN.
Proof.
  intros Hw. unfold bem_pass.
  destruct (relativeWind _ a0 ap0 _ _ _ _ _ _ _) as ((alpha & W) & Re).
  destruct (s_af sc alpha Re) as (c1 & c2).
  pose proof (zero_angle_a (rt_opts rt) (rt_B rt) (s_r sc) (s_chord sc) (rt_Rhub rt) (rt_Rtip rt) c1 c2 (s_Vx sc) (s_Vy sc)) as HA.
  pose proof (zero_angle_ap (rt_opts rt) (rt_B rt) (s_r sc) (s_chord sc) (rt_Rhub rt) (rt_Rtip rt) c1 c2 (s_Vx sc) (s_Vy sc) Hw) as HP.
  destruct (inductionFactors _ _ _ _ _ _ _ c1 c2 _ _) as ((fz' & a') & ap').
  unfold out_a, out_ap in *. simpl in HA, HP. intros E. injection E; intros; subst. auto.
Qed.

Lemma failed_loads (rt : rotor fl) (sc : sect fl) m l : wakerotation (rt_opts rt) = true -> rt_iterRe rt = S m ->
  loads rt (Fin 0) true sc = Ok l -> l = zero_load \/ o_Np l = NaN.
Proof.
  intros Hw Hm. unfold loads. destruct (andb _ _); [|intros E; injection E; auto].
  unfold runBEM. rewrite Hm. cbv beta zeta. cbn [bind].
  destruct (bem_loop rt sc (Fin 0) m) as ((((fz & a) & ap) & cl) & cd) eqn:EL.
  assert (H : (a = Fin 0 \/ a = NaN) /\ ap = NaN).
  { destruct m as [|m]; cbn [bem_loop] in EL.
    - eapply pass_zero_angle; eassumption.
    - destruct (bem_loop rt sc (Fin 0) m) as ((((fz' & a') & ap') & cl') & cd').
      eapply pass_zero_angle; eassumption. }
  destruct H as [Ha Hap]. cbn [bind]. cbv beta iota zeta. cbn [bind]. cbv beta iota zeta.
  pose proof (zero_angle_W a ap (s_Vx sc) (s_Vy sc) (rt_pitch rt) (s_chord sc) (s_theta sc) (rt_rho rt) (rt_mu rt) Ha Hap) as HW.
  destruct (relativeWind _ a ap _ _ _ _ _ _ _) as ((alpha & W) & Re). simpl in HW. subst W.
  intros E. apply ok_inj in E. right. rewrite <- E. cbn [o_Np]. cbn [nmul fl_arith ofR]. nan. reflexivity.
Qed.

Lemma failed_solve : forall npi bq (rt : rotor fl) (sc : sect fl) m l lo hi, 
  wakerotation (rt_opts rt) = true -> rt_iterRe rt = S m ->
  documented_bracket npi (errf rt sc m) lo hi ->
  bq (errf rt sc m) (Fin lo) (Fin hi) = Raise ValueError ->
  solve_station npi bq rt true sc = Ok l ->
  o_a l = Fin 0 /\ o_ap l = Fin 0 /\ o_Np l = Fin 0 /\ o_Tp l = Fin 0 /\ o_alpha l = Fin 0.
Proof.
  intros npi bq rt sc m l lo hi Hw Hm D Hb H. unfold solve_station in H. rewrite Hm in H.
  destruct (documented_bracket_exists npi (errf rt sc m)) as (a & b & D' & E).
  destruct (documented_bracket_fun _ _ _ _ _ _ D D') as [-> ->].
  unfold solve in H. rewrite E, Hb in H. cbn [bind] in H. apply bind_ok in H. destruct H as (l0 & H1 & H2).
  change (ofR 0) with (Fin 0) in H1.
  apply nan_guard_cases in H2. destruct H2 as [[Hn ->]|[_ [_ ->]]]; [|cbn; auto].
  destruct (failed_loads _ _ _ _ Hw Hm H1) as [->|HN]; [cbn; auto|].
  rewrite HN in Hn. discriminate.
Qed.

Lemma loads_ok {A} `{Arith A} (rt : rotor A) phi rot sc m : rt_iterRe rt = S m ->
  exists l, loads rt phi rot sc = Ok l.
Proof.
  intros Hm. unfold loads. destruct (andb _ _); [|eauto].
  unfold runBEM. rewrite Hm. destruct rot.
  - cbn [bind]. destruct (bem_loop rt sc phi m) as ((((fz & x) & ap) & cl) & cd).
    cbn [bind]. cbv beta iota zeta. destruct (relativeWind _ _ _ _ _ _ _ _ _ _) as ((alpha & W) & Re). eauto.
  - cbv beta zeta. destruct (relativeWind _ _ _ _ _ _ _ _ _ _) as ((alpha & W) & Re).
    destruct (s_af sc alpha Re) as (cl & cd). cbn [bind]. cbv beta iota.
    eexists. reflexivity.
Qed.

Lemma nan_guard_ok (l : sload fl) : exists l', nan_guard true l = Ok l'.
Proof. unfold nan_guard. destruct (isnan _); eauto. Qed.

Lemma failed_solve_returns : forall npi bq (rt : rotor fl) (sc : sect fl) m lo hi, 
  rt_iterRe rt = S m ->
  documented_bracket npi (errf rt sc m) lo hi ->
  bq (errf rt sc m) (Fin lo) (Fin hi) = Raise ValueError ->
  exists l, solve_station npi bq rt true sc = Ok l.
Proof.
  intros npi bq rt sc m lo hi Hm D Hb. unfold solve_station. rewrite Hm.
  destruct (documented_bracket_exists npi (errf rt sc m)) as (a & b & D' & E).
  destruct (documented_bracket_fun _ _ _ _ _ _ D D') as [-> ->].
  unfold solve. rewrite E, Hb. cbn [bind].
  destruct (loads_ok rt (ofR 0) true sc m Hm) as (l & ->). cbn [bind]. apply nan_guard_ok.
Qed.

(** ** C24 *)
Lemma zero_wind_loads rt phi rot (sc : sect fl) l : iszero (s_Vx sc) = true \/ iszero (s_Vy sc) = true ->
  loads rt phi rot sc = Ok l -> l = zero_load.
Proof.
  intros Hz. unfold loads.
  assert (E : forall x, iszero x = true -> neq x (ofR 0) = true).
  { intros [x| | | |]; simpl; try discriminate; [auto|]. intros _. apply reqb_true; reflexivity. }
  destruct Hz as [Hz|Hz]; rewrite (E _ Hz); simpl; rewrite ?andb_false_r; intros H; injection H; auto.
Qed.

Lemma zero_load_guard rot : nan_guard rot (zero_load : sload fl) = Ok zero_load.
Proof. unfold nan_guard, isnan, zero_load. cbn. replace (reqb 0 0) with true by (symmetry; apply reqb_true; reflexivity). reflexivity. Qed.

Lemma zero_wind_station : forall npi bq rt rot (sc : sect fl) l,
  iszero (s_Vx sc) = true \/ iszero (s_Vy sc) = true ->
  solve_station npi bq rt rot sc = Ok l -> l = zero_load.
Proof.
  intros npi bq rt rot sc l Hz H. unfold solve_station in H. apply bind_ok in H. destruct H as (phi & _ & H).
  apply bind_ok in H. destruct H as (l0 & H1 & H2). apply zero_wind_loads in H1; [|assumption]. subst.
  rewrite zero_load_guard in H2. injection H2; auto.
Qed.

Lemma zero_wind_station_inverse : forall npi bq rt rot r chord cl cd alpha af Vx Vy t l,
  iszero Vx = true \/ iszero Vy = true ->
  solve_station_inverse npi bq rt rot r chord cl cd alpha af Vx Vy = Ok (t, l) -> l = zero_load.
Proof.
  intros npi bq rt rot r chord cl cd alpha af Vx Vy t l Hz H. unfold solve_station_inverse in H.
  apply bind_ok in H. destruct H as (phi & _ & H).
  apply bind_ok in H. destruct H as (l0 & H1 & H2). apply zero_wind_loads in H1; [|assumption]. subst.
  apply bind_ok in H2. destruct H2 as (l1 & H2 & H3). rewrite zero_load_guard in H2.
  injection H2; intros <-. injection H3; auto.
Qed.
