(** Dynamic similarity. *)
From Coq Require Import Reals Bool Arith List Lra Lia FunctionalExtensionality.
From Verif Require Import Prelim Num Bem Interp Blade StationProofs SimilaritySpec.
Import ListNotations.
Open Scope R_scope.

(** ** Scaling of numbers with special values *)
Lemma reqb_scale k x : 0 < k -> reqb (k * x) 0 = reqb x 0.
Proof.
  intros Hk. destruct (reqb x 0) eqn:E; rb_hyps.
  - apply reqb_true. subst. ring.
  - apply reqb_false. nz; lra.
Qed.
Lemma rltb_scale k x : 0 < k -> rltb (k * x) 0 = rltb x 0.
Proof.
  intros Hk. destruct (rltb x 0) eqn:E; rb_hyps.
  - apply rltb_true. nra.
  - apply rltb_false. apply Rmult_le_pos; lra.
Qed.
Lemma sc_zero k a : 0 < k -> iszero (scaled k a) = iszero a.
Proof. intros Hk. destruct a; cbn; auto using reqb_scale. Qed.
Lemma sc_neg k a : 0 < k -> isneg (scaled k a) = isneg a.
Proof. intros Hk. destruct a; cbn; auto using rltb_scale. Qed.
Lemma sc_1 a : scaled 1 a = a.
Proof. destruct a; cbn; try reflexivity. f_equal. ring. Qed.
Lemma sc_sc j k a : scaled j (scaled k a) = scaled (j * k) a.
Proof. destruct a; cbn; try reflexivity. f_equal. ring. Qed.
Lemma sc_zs k s : scaled k (zero_s s) = zero_s s.
Proof. destruct s; cbn; [reflexivity|]. f_equal. ring. Qed.
Lemma sc_is k s : scaled k (inf_s s) = inf_s s.
Proof. destruct s; reflexivity. Qed.
Lemma sc_add k a b : fadd (scaled k a) (scaled k b) = scaled k (fadd a b).
Proof. destruct a, b; cbn; try reflexivity. f_equal. ring. Qed.
Lemma sc_opp k a : 0 < k -> fneg (scaled k a) = scaled k (fneg a).
Proof.
  intros Hk. destruct a; cbn; try reflexivity.
  - rewrite reqb_scale by exact Hk. destruct (reqb x 0); cbn; [reflexivity|f_equal; ring].
  - f_equal. ring.
Qed.
Lemma sc_sub k a b : 0 < k -> fsub (scaled k a) (scaled k b) = scaled k (fsub a b).
Proof. intros Hk. unfold fsub. rewrite sc_opp by exact Hk. apply sc_add. Qed.
Lemma sc_mul j k a b : 0 < j -> 0 < k -> fmul (scaled j a) (scaled k b) = scaled (j * k) (fmul a b).
Proof.
  intros Hj Hk. destruct a, b; cbn [fmul scaled]; try reflexivity;
    rewrite ?(sc_zero j (Fin _)), ?(sc_neg j (Fin _)), ?(sc_zero k (Fin _)), ?(sc_neg k (Fin _)) by assumption;
    cbn [iszero isneg]; rewrite ?reqb_scale, ?rltb_scale by assumption;
    repeat match goal with |- context [if ?c then _ else _] => destruct c end; cbn [scaled]; rewrite ?sc_zs, ?sc_is; try reflexivity.
  f_equal. ring.
Qed.
Lemma sc_div j k a b : 0 < j -> 0 < k -> fdiv (scaled j a) (scaled k b) = scaled (j / k) (fdiv a b).
Proof.
  intros Hj Hk. destruct a, b; cbn [fdiv scaled]; try reflexivity;
    cbn [iszero isneg]; rewrite ?reqb_scale, ?rltb_scale by assumption;
    repeat match goal with |- context [if ?c then _ else _] => destruct c eqn:? end; cbn [scaled]; rewrite ?sc_zs, ?sc_is; try reflexivity.
  rb_hyps. f_equal. field. split; [assumption|lra].
Qed.
Lemma sc_sqrt k a : 0 < k -> fsqrt (scaled (k * k) a) = scaled k (fsqrt a).
Proof.
  intros Hk. destruct a; cbn; try reflexivity. rewrite rltb_scale by nra. destruct (rltb x 0) eqn:E; rb_hyps; [reflexivity|].
  cbn. f_equal. rewrite sqrt_mult by nra. rewrite sqrt_square by lra. reflexivity.
Qed.
Lemma sc_feq0 k a : 0 < k -> feq (scaled k a) (Fin 0) = feq a (Fin 0).
Proof. intros Hk. destruct a; cbn; try reflexivity. apply reqb_scale; exact Hk. Qed.
Lemma sc_nan k a : isnan (scaled k a) = isnan a.
Proof.
  unfold isnan. cbn. destruct a; try reflexivity. cbn. f_equal. destruct (reqb x x) eqn:E; rb_hyps; [apply reqb_true; reflexivity|]. congruence.
Qed.
(** Variants with one factor unscaled. *)
Lemma sc_mul_l k a b : 0 < k -> fmul (scaled k a) b = scaled k (fmul a b).
Proof. intros Hk. rewrite <- (sc_1 b) at 1. rewrite sc_mul by lra. f_equal. ring. Qed.
Lemma sc_mul_r k a b : 0 < k -> fmul a (scaled k b) = scaled k (fmul a b).
Proof. intros Hk. rewrite <- (sc_1 a) at 1. rewrite sc_mul by lra. f_equal. ring. Qed.
Lemma sc_div_l k a b : 0 < k -> fdiv (scaled k a) b = scaled k (fdiv a b).
Proof. intros Hk. rewrite <- (sc_1 b) at 1. rewrite sc_div by lra. f_equal. field. Qed.
Lemma sc_div_same k a b : 0 < k -> fdiv (scaled k a) (scaled k b) = fdiv a b.
Proof. intros Hk. rewrite sc_div by lra. rewrite <- (sc_1 (fdiv a b)) at 2. f_equal. field. lra. Qed.

(** ** One station *)
Section Station.
Variable s : scales.
Hypothesis Hs : proper s.
Variables (rt rt' : rotor fl).
Hypothesis Hrt : rt' = mkRotor (scaled (len s) (rt_Rhub rt)) (scaled (len s) (rt_Rtip rt)) (rt_B rt) (scaled (den s) (rt_rho rt))
   (scaled (vis s) (rt_mu rt)) (rt_opts rt) (rt_iterRe rt) (rt_pitch rt).
Variables (r chord theta Vx Vy : fl) (af : airfoil fl).
Let sc := mkSect r chord theta af Vx Vy.
Let sc' := mkSect (scaled (len s) r) (scaled (len s) chord) theta af (scaled (vel s) Vx) (scaled (vel s) Vy).
Hypothesis Haf : vis s = den s * vel s * len s \/ ignores_Re af.

Let ret := den s * vel s * len s / vis s.

Lemma sim_ind phi cl cd : inductionFactors (rt_opts rt) (rt_B rt) (scaled (len s) r) (scaled (len s) chord) (scaled (len s) (rt_Rhub rt)) (scaled (len s) (rt_Rtip rt))
    phi cl cd (scaled (vel s) Vx) (scaled (vel s) Vy) = inductionFactors (rt_opts rt) (rt_B rt) r chord (rt_Rhub rt) (rt_Rtip rt) phi cl cd Vx Vy.
Proof.
  destruct Hs as (H1 & H2 & H3 & H4).
  assert (E : bem_locals (rt_opts rt) (rt_B rt) (scaled (len s) r) (scaled (len s) chord) (scaled (len s) (rt_Rhub rt)) (scaled (len s) (rt_Rtip rt)) phi cl cd =
              bem_locals (rt_opts rt) (rt_B rt) r chord (rt_Rhub rt) (rt_Rtip rt) phi cl cd).
  { unfold bem_locals. cbn [nadd nsub nmul ndiv nopp nabs nsqrt nsin ncos nacos nexp nle nlt neq ofR fl_arith].
    rewrite !sc_sub by exact H1. rewrite !sc_mul_r by exact H1. rewrite !sc_mul_l by exact H1. rewrite !sc_div_same by exact H1. reflexivity. }
  unfold inductionFactors. rewrite E. cbn [ndiv fl_arith]. rewrite sc_div_same by exact H2. reflexivity.
Qed.

Lemma sim_wind phi a ap al W Re : relativeWind phi a ap Vx Vy (rt_pitch rt) chord theta (rt_rho rt) (rt_mu rt) = (al, W, Re) ->
  relativeWind phi a ap (scaled (vel s) Vx) (scaled (vel s) Vy) (rt_pitch rt) (scaled (len s) chord) theta (scaled (den s) (rt_rho rt)) (scaled (vis s) (rt_mu rt)) =
  (al, scaled (vel s) W, scaled ret Re).
Proof.
  destruct Hs as (H1 & H2 & H3 & H4). unfold relativeWind, ret. cbn [nadd nsub nmul ndiv nopp nabs nsqrt nsin ncos nacos nexp nle nlt neq ofR fl_arith].
  intros E. 
  set (W0 := if flt (Fin 10) (fabs a) then _ else if flt (Fin 10) (fabs ap) then _ else _) in E.
  set (W1 := if flt (Fin 10) (fabs a) then fdiv (fmul (scaled _ _) _) _ else if flt (Fin 10) (fabs ap) then _ else _).
  assert (EW : W1 = scaled (vel s) W0).
  { unfold W0, W1. repeat match goal with |- context [if ?c then _ else _] => destruct c end; rewrite ?sc_mul_l by exact H2; rewrite ?sc_div_l by exact H2; try reflexivity.
    rewrite !sc_mul_r, !sc_sc by exact H2. rewrite sc_add. apply sc_sqrt. exact H2. }
  rewrite EW. apply pair_equal_spec in E. destruct E as [E <-]. apply pair_equal_spec in E. destruct E as [<- <-].
  f_equal. rewrite sc_mul by assumption. rewrite sc_mul by (try apply Rmult_lt_0_compat; assumption). apply sc_div; [|assumption].
  repeat apply Rmult_lt_0_compat; assumption.
Qed.

Lemma sim_af al Re : af al (scaled ret Re) = af al Re.
Proof.
  destruct Haf as [H|H]; [|apply H]. unfold ret. rewrite <- H. replace (vis s / vis s) with 1 by (field; destruct Hs as (? & ? & ? & ?); lra).
  rewrite sc_1. reflexivity.
Qed.

Lemma sim_pass phi a ap : bem_pass rt' sc' phi a ap = bem_pass rt sc phi a ap.
Proof.
  unfold bem_pass. rewrite Hrt. cbn [rt_Rhub rt_Rtip rt_B rt_rho rt_mu rt_opts rt_iterRe rt_pitch sc sc' s_r s_chord s_theta s_af s_Vx s_Vy].
  destruct (relativeWind phi a ap Vx Vy (rt_pitch rt) chord theta (rt_rho rt) (rt_mu rt)) as [[al W] Re] eqn:E. rewrite (sim_wind _ _ _ _ _ _ E).
  rewrite sim_af. destruct (af al Re) as [cl cd]. rewrite sim_ind. reflexivity.
Qed.
Lemma sim_loop phi m : bem_loop rt' sc' phi m = bem_loop rt sc phi m.
Proof.
  induction m as [|m IH]; cbn [bem_loop]; [apply sim_pass|]. rewrite IH. destruct (bem_loop rt sc phi m) as [[[[fz a] ap] cl] cd]. apply sim_pass.
Qed.
Lemma sim_run phi : runBEM rt' sc' phi = runBEM rt sc phi.
Proof.
  unfold runBEM. replace (rt_iterRe rt') with (rt_iterRe rt) by (rewrite Hrt; reflexivity).
  pose proof (fun m => sim_loop phi m) as L. destruct (rt_iterRe rt); [reflexivity|]. rewrite L. reflexivity.
Qed.
Lemma sim_errf m : errf rt' sc' m = errf rt sc m.
Proof. apply functional_extensionality. intros phi. unfold errf. rewrite sim_loop. reflexivity. Qed.
Lemma sim_errf_inverse cl cd :
  errf_inverse rt' (scaled (len s) r) (scaled (len s) chord) cl cd (scaled (vel s) Vx) (scaled (vel s) Vy) = errf_inverse rt r chord cl cd Vx Vy.
Proof.
  apply functional_extensionality. intros phi. unfold errf_inverse. rewrite Hrt. cbn [rt_Rhub rt_Rtip rt_B rt_opts]. rewrite sim_ind. reflexivity.
Qed.

Lemma sim_zero : similar_load s zero_load zero_load.
Proof.
  unfold similar_load, zero_load. cbn. do 7 (split; [reflexivity|]). rewrite !Rmult_0_r. repeat split.
Qed.

Lemma sim_loads phi rot : corresponds (similar_load s) (loads rt phi rot sc) (loads rt' phi rot sc').
Proof.
  destruct Hs as (H1 & H2 & H3 & H4). unfold loads.
  replace (rt_pitch rt') with (rt_pitch rt) by (rewrite Hrt; reflexivity). replace (rt_rho rt') with (scaled (den s) (rt_rho rt)) by (rewrite Hrt; reflexivity).
  replace (rt_mu rt') with (scaled (vis s) (rt_mu rt)) by (rewrite Hrt; reflexivity).
  cbn [rt_Rhub rt_Rtip rt_B rt_rho rt_mu rt_opts rt_iterRe rt_pitch sc sc' s_r s_chord s_theta s_af s_Vx s_Vy].
  fold sc. fold sc'.
  replace (neq (scaled (vel s) Vx) (ofR 0)) with (neq Vx (ofR 0)) by (symmetry; apply sc_feq0; exact H2).
  replace (neq (scaled (vel s) Vy) (ofR 0)) with (neq Vy (ofR 0)) by (symmetry; apply sc_feq0; exact H2).
  destruct (andb _ _); [|apply sim_zero].
  assert (K : forall a ap cl cd, 
    corresponds (similar_load s)
     (let '(alpha, W, Re) := relativeWind phi a ap Vx Vy (rt_pitch rt) chord theta (rt_rho rt) (rt_mu rt) in
      let cn := nadd (nmul cl (ncos phi)) (nmul cd (nsin phi)) in let ct := nsub (nmul cl (nsin phi)) (nmul cd (ncos phi)) in
      let q := nmul (nmul (ofR (1 / 2)) (rt_rho rt)) (nmul W W) in
      Ok (mkLoad a ap (nmul (nmul cn q) chord) (nmul (nmul ct q) chord) (rad2deg alpha) cl cd cn ct q W Re))
     (let '(alpha, W, Re) := relativeWind phi a ap (scaled (vel s) Vx) (scaled (vel s) Vy) (rt_pitch rt) (scaled (len s) chord) theta (scaled (den s) (rt_rho rt)) (scaled (vis s) (rt_mu rt)) in
      let cn := nadd (nmul cl (ncos phi)) (nmul cd (nsin phi)) in let ct := nsub (nmul cl (nsin phi)) (nmul cd (ncos phi)) in
      let q := nmul (nmul (ofR (1 / 2)) (scaled (den s) (rt_rho rt))) (nmul W W) in
      Ok (mkLoad a ap (nmul (nmul cn q) (scaled (len s) chord)) (nmul (nmul ct q) (scaled (len s) chord)) (rad2deg alpha) cl cd cn ct q W Re))).
  { intros a ap cl cd. destruct (relativeWind phi a ap Vx Vy _ _ _ _ _) as [[al W] Re] eqn:E. rewrite (sim_wind _ _ _ _ _ _ E).
    cbv zeta. cbn [corresponds]. unfold similar_load. cbn [o_a o_ap o_alpha o_cl o_cd o_cn o_ct o_W o_q o_Np o_Tp o_Re].
    do 8 (split; [reflexivity|]). cbn [nmul fl_arith ofR].
    rewrite (sc_mul_r (den s)) by exact H3. rewrite (sc_mul (vel s) (vel s)) by exact H2. rewrite (sc_mul (den s) (vel s * vel s)) by (try apply Rmult_lt_0_compat; assumption).
    assert (P : 0 < den s * (vel s * vel s)) by (repeat apply Rmult_lt_0_compat; assumption).
    rewrite !(sc_mul_r (den s * (vel s * vel s))) by exact P. rewrite !(sc_mul (den s * (vel s * vel s)) (len s)) by assumption.
    replace (den s * vel s ^ 2) with (den s * (vel s * vel s)) by ring.
    replace (force s / len s) with (den s * (vel s * vel s) * len s) by (unfold force; field; lra).
    do 3 (split; [reflexivity|]). reflexivity. }
  destruct rot.
  - rewrite sim_run. destruct (runBEM rt sc phi) as [[[[[fz a] ap] cl] cd]|e]; cbn [bind]; [apply K|reflexivity].
  - destruct (relativeWind phi (ofR 0) (ofR 0) Vx Vy _ _ _ _ _) as [[al W] Re] eqn:E. rewrite (sim_wind _ _ _ _ _ _ E). rewrite sim_af.
    destruct (af al Re) as [cl cd]. cbn [bind]. apply K.
Qed.

Lemma sim_guard rot l l' : similar_load s l l' -> corresponds (similar_load s) (nan_guard rot l) (nan_guard rot l').
Proof.
  intros H. unfold nan_guard. pose proof H as (A1 & A2 & A3 & A4 & A5 & A6 & A7 & A8 & A9 & A10 & A11 & A12). rewrite A10, sc_nan.
  destruct (isnan (o_Np l)); [|exact H]. destruct rot; [|reflexivity]. cbn [corresponds]. unfold similar_load.
  cbn [o_a o_ap o_alpha o_cl o_cd o_cn o_ct o_W o_q o_Np o_Tp o_Re ofR fl_arith scaled]. rewrite !Rmult_0_r.
  do 3 (split; [reflexivity|]). do 6 (split; [assumption|]). do 2 (split; [reflexivity|]). exact A12.
Qed.

Lemma corr_bind {X Y X' Y'} (P : X -> X' -> Prop) (Q : Y -> Y' -> Prop) m m' (f : X -> res Y) (f' : X' -> res Y') :
  corresponds P m m' -> (forall x x', P x x' -> corresponds Q (f x) (f' x')) -> corresponds Q (bind m f) (bind m' f').
Proof. destruct m, m'; cbn; intros H K; [apply K; exact H|contradiction|contradiction|exact H]. Qed.
Lemma corr_refl {X} (m : res X) : corresponds eq m m.
Proof. destruct m; reflexivity. Qed.

Lemma sim_station npi bq rot : corresponds (similar_load s) (solve_station npi bq rt rot sc) (solve_station npi bq rt' rot sc').
Proof.
  unfold solve_station. replace (rt_iterRe rt') with (rt_iterRe rt) by (rewrite Hrt; reflexivity).
  apply (corr_bind eq).
  - pose proof (fun m => sim_errf m) as L. destruct rot; [|reflexivity]. destruct (rt_iterRe rt); [reflexivity|]. rewrite L. apply corr_refl.
  - intros phi ? <-. apply (corr_bind (similar_load s)); [apply sim_loads|]. intros l l'. apply sim_guard.
Qed.
End Station.

Lemma sim_station_inverse s (Hs : proper s) rt rt' (Hrt : rt' = mkRotor (scaled (len s) (rt_Rhub rt)) (scaled (len s) (rt_Rtip rt)) (rt_B rt) (scaled (den s) (rt_rho rt))
   (scaled (vis s) (rt_mu rt)) (rt_opts rt) (rt_iterRe rt) (rt_pitch rt)) r chord cl cd al af Vx Vy npi bq rot :
   (vis s = den s * vel s * len s \/ ignores_Re af) ->
   corresponds (fun x y => fst x = fst y /\ similar_load s (snd x) (snd y))
     (solve_station_inverse npi bq rt rot r chord cl cd al af Vx Vy)
     (solve_station_inverse npi bq rt' rot (scaled (len s) r) (scaled (len s) chord) cl cd al af (scaled (vel s) Vx) (scaled (vel s) Vy)).
Proof.
  intros Haf. unfold solve_station_inverse. replace (rt_iterRe rt') with (rt_iterRe rt) by (rewrite Hrt; reflexivity).
  replace (rt_pitch rt') with (rt_pitch rt) by (rewrite Hrt; reflexivity).
  apply (corr_bind eq).
  - pose proof (sim_errf_inverse s Hs rt rt' Hrt) as L. destruct rot; [|reflexivity]. destruct (rt_iterRe rt); [reflexivity|]. rewrite L. apply corr_refl.
  - intros phi ? <-. cbv zeta. apply (corr_bind (similar_load s)).
    + apply (sim_loads s Hs rt rt' Hrt). exact Haf.
    + intros l l' Hl. apply (corr_bind (similar_load s)); [apply sim_guard; exact Hl|]. intros x y Hxy. cbn. split; [reflexivity|exact Hxy].
Qed.

(** ** The object *)
Definition sim_blade (s : scales) (b : blade) : blade :=
  let L := Rmult (len s) in
  mkBlade (map L (b_r b)) (map L (b_chord b)) (b_theta b) (b_af b) (L (b_Rhub b)) (L (b_Rtip b)) (b_B b) (den s * b_rho b) (vis s * b_mu b)
    (b_precone b) (b_tilt b) (b_yaw b) (b_shearExp b) (L (b_hubHt b)) (b_opts b) (b_iterRe b)
    (map L (b_precurve b)) (L (b_precurveTip b)) (map L (b_presweep b)) (L (b_presweepTip b)) (L (b_rotorR b)) (b_nSector b)
    (b_inverse b) (b_cl b) (b_cd b) (b_alpha b) (b_pitch b).

Lemma nth_map0 k l i : nth i (map (Rmult k) l) 0 = k * nth i l 0.
Proof. revert i. induction l as [|x l IH]; intros [|i]; cbn; try ring; try reflexivity. apply IH. Qed.
Lemma hd_map0 k l : hd 0 (map (Rmult k) l) = k * hd 0 l.
Proof. destruct l; cbn; ring. Qed.
Lemma last_map0 k l : last (map (Rmult k) l) 0 = k * last l 0.
Proof.
  induction l as [|x l IH]; [cbn; ring|]. destruct l as [|y l]; [reflexivity|].
  change (last (map (Rmult k) (y :: l)) 0 = k * last (y :: l) 0). exact IH.
Qed.
Lemma reqb_both k x y : k <> 0 -> reqb (k * x) (k * y) = reqb x y.
Proof.
  intros Hk. destruct (reqb x y) eqn:E; rb_hyps; [apply reqb_true; subst; reflexivity|]. apply reqb_false. intros H. apply E.
  apply (Rmult_eq_reg_l k); assumption.
Qed.
Lemma interp_from_scale k x xp : forall x0 f0 fp, interp_from x x0 (k * f0) xp (map (Rmult k) fp) = k * interp_from x x0 f0 xp fp.
Proof.
  induction xp as [|x1 xp IH]; intros x0 f0 [|f1 fp]; cbn [map interp_from]; try reflexivity. destruct (rltb x x1); [|apply IH].
  unfold seg. destruct (reqb x0 x); [reflexivity|]. unfold Rdiv. ring.
Qed.
Lemma interp_scale k x xp fp : interp x xp (map (Rmult k) fp) = k * interp x xp fp.
Proof. destruct xp as [|x0 xp], fp as [|f0 fp]; cbn [map interp]; try ring. destruct (rltb x x0); [reflexivity|]. apply interp_from_scale. Qed.
Lemma rnd_scale k r : k <> 0 -> r_nd (map (Rmult k) r) = r_nd r.
Proof.
  intros Hk. unfold r_nd. rewrite map_map, hd_map0, last_map0. apply map_ext. intros x.
  rewrite <- !Rmult_minus_distr_l. destruct (Req_EM_T (last r 0 - hd 0 r) 0) as [E|E].
  - rewrite E, Rmult_0_r. unfold Rdiv. rewrite Rinv_0. ring.
  - field. split; assumption.
Qed.
Lemma set_first_map k x l : set_first (k * x) (map (Rmult k) l) = map (Rmult k) (set_first x l).
Proof. destruct l; reflexivity. Qed.
Lemma removelast_map k l : removelast (map (Rmult k) l) = map (Rmult k) (removelast l).
Proof. induction l as [|x [|y l] IH]; try reflexivity. change (k * x :: removelast (map (Rmult k) (y :: l)) = k * x :: map (Rmult k) (removelast (y :: l))). rewrite IH. reflexivity. Qed.
Lemma set_last_map k x l : set_last (k * x) (map (Rmult k) l) = map (Rmult k) (set_last x l).
Proof.
  destruct l as [|y l]; [reflexivity|]. change (removelast (map (Rmult k) (y :: l)) ++ [k * x] = map (Rmult k) (removelast (y :: l) ++ [x])).
  rewrite removelast_map, map_app. reflexivity.
Qed.
Lemma zeros_map k (r : list R) : map (fun _ : R => 0) (map (Rmult k) r) = map (Rmult k) (map (fun _ => 0) r).
Proof. rewrite !map_map. apply map_ext. intros. ring. Qed.

Lemma curve_error_scale k r pct pc pst ps : k <> 0 ->
  curve_error (map (Rmult k) r) (k * pct) (map (Rmult k) pc) (k * pst) (map (Rmult k) ps) = curve_error r pct pc pst ps.
Proof.
  intros Hk. assert (T : forall tip l, tip_error (map (Rmult k) r) (k * tip) (map (Rmult k) l) = tip_error r tip l).
  { intros tip [|x l]; [reflexivity|]. unfold tip_error. rewrite last_map0, !map_length, reqb_both by exact Hk. reflexivity. }
  unfold curve_error. rewrite !T. reflexivity.
Qed.

Lemma sim_construct s g : len s <> 0 -> construct (similar_args s g) = match construct g with Ok b => Ok (sim_blade s b) | Raise e => Raise e end.
Proof.
  intros Hk. unfold construct, similar_args.
  cbn [g_r g_chord g_theta g_af g_Rhub g_Rtip g_B g_rho g_mu g_precone g_tilt g_yaw g_shearExp g_hubHt g_nSector g_precurve g_precurveTip g_presweep g_presweepTip g_opts g_iterRe].
  rewrite map_length. destruct (Nat.ltb (length (g_r g)) 2); [reflexivity|]. cbv zeta. rewrite zeros_map.
  set (pc := match g_precurve g with Some l => l | None => _ end). set (pct := match g_precurve g with Some _ => _ | None => 0 end).
  set (ps := match g_presweep g with Some l => l | None => _ end). set (pst := match g_presweep g with Some _ => _ | None => 0 end).
  replace (match option_map (map (Rmult (len s))) (g_precurve g) with Some l => l | None => map (Rmult (len s)) (map (fun _ => 0) (g_r g)) end) with (map (Rmult (len s)) pc)
    by (unfold pc; destruct (g_precurve g); reflexivity).
  replace (match option_map (map (Rmult (len s))) (g_presweep g) with Some l => l | None => map (Rmult (len s)) (map (fun _ => 0) (g_r g)) end) with (map (Rmult (len s)) ps)
    by (unfold ps; destruct (g_presweep g); reflexivity).
  replace (match option_map (map (Rmult (len s))) (g_precurve g) with Some _ => len s * g_precurveTip g | None => 0 end) with (len s * pct)
    by (unfold pct; destruct (g_precurve g); cbn; ring).
  replace (match option_map (map (Rmult (len s))) (g_presweep g) with Some _ => len s * g_presweepTip g | None => 0 end) with (len s * pst)
    by (unfold pst; destruct (g_presweep g); cbn; ring).
  rewrite curve_error_scale by exact Hk. destruct (curve_error _ _ _ _ _); [reflexivity|].
  rewrite rnd_scale by exact Hk. rewrite !interp_scale, hd_map0, !last_map0, !reqb_both by exact Hk. f_equal.
  unfold sim_blade. cbn [b_r b_chord b_theta b_af b_Rhub b_Rtip b_B b_rho b_mu b_precone b_tilt b_yaw b_shearExp b_hubHt b_opts b_iterRe b_precurve b_precurveTip b_presweep b_presweepTip b_rotorR b_nSector b_inverse b_cl b_cd b_alpha b_pitch].
  set (nd := r_nd (g_r g)).
  assert (E1 : forall c1 c2 : bool, (if c2 then set_last (len s * interp (nd_tip nd) nd (g_r g)) (if c1 then set_first (len s * interp (nd_hub nd) nd (g_r g)) (map (Rmult (len s)) (g_r g)) else map (Rmult (len s)) (g_r g))
     else if c1 then set_first (len s * interp (nd_hub nd) nd (g_r g)) (map (Rmult (len s)) (g_r g)) else map (Rmult (len s)) (g_r g)) =
     map (Rmult (len s)) (if c2 then set_last (interp (nd_tip nd) nd (g_r g)) (if c1 then set_first (interp (nd_hub nd) nd (g_r g)) (g_r g) else g_r g)
       else if c1 then set_first (interp (nd_hub nd) nd (g_r g)) (g_r g) else g_r g)).
  { intros c1 c2. destruct c1, c2; rewrite ?set_first_map, ?set_last_map; reflexivity. }
  assert (E2 : forall (c : bool) x l, (if c then set_last (len s * x) (map (Rmult (len s)) l) else map (Rmult (len s)) l) =
     map (Rmult (len s)) (if c then set_last x l else l)) by (intros [] x l; rewrite ?set_last_map; reflexivity).
  assert (E3 : len s * g_Rtip g * cos (radians (g_precone g)) + len s * pct * sin (radians (g_precone g)) =
     len s * (g_Rtip g * cos (radians (g_precone g)) + pct * sin (radians (g_precone g)))) by ring.
  rewrite E1, !E2, E3. reflexivity.
Qed.

(** ** Wind *)
Lemma atan2_scale k y x : 0 < k -> atan2 (k * y) (k * x) = atan2 y x.
Proof.
  intros Hk. unfold atan2.
  assert (P : forall z, rltb 0 (k * z) = rltb 0 z).
  { intros z. destruct (rltb 0 z) eqn:E; rb_hyps; [apply rltb_true; nra|apply rltb_false; nra]. }
  assert (Q : rleb 0 (k * y) = rleb 0 y).
  { destruct (rleb 0 y) eqn:E; rb_hyps; [apply rleb_true; nra|apply rleb_false; nra]. }
  rewrite !P, !rltb_scale, Q by exact Hk. destruct (rltb 0 x) eqn:E1; rb_hyps; [replace (k * y / (k * x)) with (y / x) by (field; lra); reflexivity|].
  destruct (rltb x 0) eqn:E2; rb_hyps; [replace (k * y / (k * x)) with (y / x) by (field; lra); reflexivity|reflexivity].
Qed.

Definition tms (k : R) (f : arr) : arr := fun i => k * f i.
Lemma aget_map k l : aget (map (Rmult k) l) = tms k (aget l).
Proof. apply functional_extensionality. intros i. apply nth_map0. Qed.
Lemma cone_scale k n x z : 0 < k -> curv_cone n (tms k x) (tms k z) = curv_cone n x z.
Proof.
  intros Hk. apply functional_extensionality. intros i. unfold curv_cone, tms.
  repeat match goal with |- context [- (k * ?a - k * ?b)] => replace (- (k * a - k * b)) with (k * - (a - b)) by ring end.
  rewrite <- !Rmult_minus_distr_l. rewrite !atan2_scale by exact Hk. reflexivity.
Qed.
Lemma s_scale k r pc ps i : 0 < k -> curv_s (tms k r) (tms k pc) (tms k ps) i = k * curv_s r pc ps i.
Proof.
  intros Hk. induction i as [|i IH]; cbn [curv_s]; [ring|]. rewrite IH. unfold tms.
  set (Z := (pc (S i) - pc i) ^ 2 + (ps (S i) - ps i) ^ 2 + (r (S i) - r i) ^ 2).
  replace ((k * pc (S i) - k * pc i) ^ 2 + (k * ps (S i) - k * ps i) ^ 2 + (k * r (S i) - k * r i) ^ 2) with ((k * k) * Z) by (unfold Z; ring).
  rewrite sqrt_mult; [|nra|unfold Z; pose proof (pow2_ge_0 (pc (S i) - pc i)); pose proof (pow2_ge_0 (ps (S i) - ps i)); pose proof (pow2_ge_0 (r (S i) - r i)); lra]. rewrite sqrt_square by lra. ring.
Qed.
Lemma curv_scale k n r pc ps precone : 0 < k -> 
  defineCurvature n (tms k r) (tms k pc) (tms k ps) precone =
  (let '(x, y, z, c, s) := defineCurvature n r pc ps precone in (tms k x, tms k y, tms k z, c, tms k s)).
Proof.
  intros Hk. unfold defineCurvature, curv_y.
  assert (X : curv_x (tms k r) (tms k pc) precone = tms k (curv_x r pc precone)) by (apply functional_extensionality; intros i; unfold curv_x, tms; ring).
  assert (Z : curv_z (tms k r) (tms k pc) precone = tms k (curv_z r pc precone)) by (apply functional_extensionality; intros i; unfold curv_z, tms; ring).
  rewrite X, Z, cone_scale by exact Hk. repeat apply (f_equal2 pair); try reflexivity.
  apply functional_extensionality. intros i. apply s_scale. exact Hk.
Qed.

Lemma sim_windc s b U Om az : proper s -> wind (sim_blade s b) (vel s * U) (vel s / len s * Om) az =
  (tms (vel s) (fst (wind b U Om az)), tms (vel s) (snd (wind b U Om az))).
Proof.
  intros (H1 & H2 & _). unfold wind, sim_blade.
  cbn [b_r b_precurve b_presweep b_precone b_yaw b_tilt b_hubHt b_shearExp]. rewrite map_length, !aget_map. unfold windComponents. rewrite curv_scale by exact H1.
  unfold defineCurvature. cbn [fst snd].
  set (X := curv_x _ _ _). set (Z := curv_z _ _ _). set (Y := curv_y _). set (C := curv_cone _ _ _).
  assert (Q : forall i, ((tms (len s) Y i * sin az + tms (len s) Z i * cos az) * cos (b_tilt b) - tms (len s) X i * sin (b_tilt b)) / (len s * b_hubHt b) =
     ((Y i * sin az + Z i * cos az) * cos (b_tilt b) - X i * sin (b_tilt b)) / b_hubHt b).
  { intros i. unfold tms. destruct (Req_EM_T (b_hubHt b) 0) as [E|E]; [rewrite E, Rmult_0_r; unfold Rdiv; rewrite Rinv_0; ring|]. field. split; lra. }
  apply (f_equal2 pair); apply functional_extensionality; intros i; rewrite Q; unfold tms; field; lra.
Qed.

(** ** distributedAeroLoads *)
Lemma corr_mapM {X Y Z} (P : Y -> Z -> Prop) (f : X -> res Y) (g : X -> res Z) l : (forall x, In x l -> corresponds P (f x) (g x)) ->
  corresponds (Forall2 P) (mapM f l) (mapM g l).
Proof.
  induction l as [|x l IH]; intros H; cbn [mapM]; [constructor|]. apply (corr_bind P); [apply H; left; reflexivity|].
  intros y z Hyz. apply (corr_bind (Forall2 P)); [apply IH; intros; apply H; right; assumption|]. intros ys zs Hl. cbn. constructor; assumption.
Qed.
Lemma corr_mono {X Y} (P Q : X -> Y -> Prop) a b : (forall x y, P x y -> Q x y) -> corresponds P a b -> corresponds Q a b.
Proof. destruct a, b; cbn; auto. Qed.
Lemma pyget_map k l i : corresponds (fun x y => y = k * x) (pyget l i) (pyget (map (Rmult k) l) i).
Proof. unfold pyget. rewrite nth_error_map. destruct (nth_error l i); reflexivity. Qed.

Lemma sim_station_i s npi bq b p U Om az i : proper s -> reynolds_ok s (b_af b) ->
  corresponds (fun x y => fst x = fst y /\ similar_load s (snd x) (snd y))
    (station_i npi bq b p Om (wind b U Om az) i) (station_i npi bq (sim_blade s b) p (vel s / len s * Om) (wind (sim_blade s b) (vel s * U) (vel s / len s * Om) az) i).
Proof.
  intros Hs Hre. unfold station_i. rewrite sim_windc by exact Hs. cbn [fst snd].
  assert (RO : reqb (vel s / len s * Om) 0 = reqb Om 0).
  { destruct Hs as (H1 & H2 & _). apply reqb_scale. apply Rdiv_lt_0_compat; assumption. }
  rewrite RO. cbn [sim_blade b_r b_chord b_af b_inverse b_cl b_cd b_alpha b_theta].
  apply (corr_bind _ _ _ _ _ _ (pyget_map (len s) _ i)). intros r ? ->. apply (corr_bind _ _ _ _ _ _ (pyget_map (len s) _ i)). intros c ? ->.
  assert (HA : corresponds (fun x y => x = y /\ In x (b_af b)) (pyget (b_af b) i) (pyget (b_af b) i)).
  { unfold pyget. destruct (nth_error (b_af b) i) eqn:E; [|reflexivity]. cbn. split; [reflexivity|]. eapply nth_error_In. exact E. }
  apply (corr_bind _ _ _ _ _ _ HA). intros af ? [<- Hin].
  assert (Haf : vis s = den s * vel s * len s \/ ignores_Re af) by (destruct Hre as [H|H]; [left; exact H|right; apply H; exact Hin]).
  destruct (b_inverse b).
  - apply (corr_bind _ _ _ _ _ _ (corr_refl _)). intros cl ? <-. apply (corr_bind _ _ _ _ _ _ (corr_refl _)). intros cd ? <-.
    apply (corr_bind _ _ _ _ _ _ (corr_refl _)). intros al ? <-.
    apply (sim_station_inverse s Hs (rotor_of b p) (rotor_of (sim_blade s b) p) eq_refl (Fin r) (Fin c) (Fin cl) (Fin cd) (Fin al) af (Fin (fst (wind b U Om az) i)) (Fin (snd (wind b U Om az) i)) npi bq). exact Haf.
  - apply (corr_bind _ _ _ _ _ _ (corr_refl _)). intros th ? <-. 
    eapply corr_bind. { apply (sim_station s Hs (rotor_of b p) (rotor_of (sim_blade s b) p) eq_refl (Fin r) (Fin c) th (Fin (fst (wind b U Om az) i)) (Fin (snd (wind b U Om az) i)) af Haf). }
    intros l l' Hl. cbn. split; [reflexivity|exact Hl].
Qed.

Lemma sim_shapes s b : shapes_ok (sim_blade s b) = shapes_ok b.
Proof. unfold shapes_ok, sim_blade. cbn [b_precurve b_presweep b_r]. rewrite !map_length. reflexivity. Qed.

Lemma sim_distributed s npi bq b U Om p az : proper s -> reynolds_ok s (b_af b) ->
  corresponds (fun x y => fst y = sim_blade s (fst x) /\ Forall2 (similar_load s) (snd x) (snd y))
    (distributedAeroLoads npi bq b U Om p az) (distributedAeroLoads npi bq (sim_blade s b) (vel s * U) (vel s / len s * Om) p az).
Proof.
  intros Hs Hre. unfold distributedAeroLoads. rewrite sim_shapes. destruct (negb (shapes_ok b)); [reflexivity|]. cbv zeta.
  replace (length (b_r (sim_blade s b))) with (length (b_r b)) by (cbn; rewrite map_length; reflexivity).
  eapply corr_bind. { apply corr_mapM. intros i _. apply sim_station_i; [exact Hs|exact Hre]. }
  intros xs ys H. cbn. split.
  - replace (if b_inverse b then map fst ys else b_theta b) with (if b_inverse b then map fst xs else b_theta b); [reflexivity|].
    destruct (b_inverse b); [|reflexivity]. induction H as [|x y xs ys [E _] _ IH]; cbn; [reflexivity|]. rewrite E, IH. reflexivity.
  - induction H as [|x y xs ys [_ E] _ IH]; cbn; constructor; assumption.
Qed.

(** ** evaluate *)
Lemma pad_tms k n a f b : pad n (k * a) (tms k f) (k * b) = tms k (pad n a f b).
Proof. apply functional_extensionality. intros i. unfold pad, tms. destruct (Nat.eqb i 0); [reflexivity|]. destruct (Nat.eqb i (n + 1)); reflexivity. Qed.
Lemma trapz_scale j k m f f' s s' : (forall i, f' i = j * f i) -> (forall i, s' i = k * s i) -> trapz m f' s' = j * k * trapz m f s.
Proof. intros Hf Hs. induction m as [|m IH]; cbn [trapz]; [ring|]. rewrite IH, !Hf, !Hs. ring. Qed.
Lemma sim_thrust j k n Np Tp r pc ps precone Rhub Rtip ct st : 0 < k ->
  thrustTorque n (tms j Np) (tms j Tp) (tms k r) (tms k pc) (tms k ps) precone (k * Rhub) (k * Rtip) (k * ct) (k * st) =
  (let '(T, Y, Z, Q, M) := thrustTorque n Np Tp r pc ps precone Rhub Rtip ct st in (j * k * T, j * k * Y, j * k * Z, j * k * k * Q, j * k * k * M)).
Proof.
  intros Hk. unfold thrustTorque. rewrite pad_tms.
  replace (pad n 0 (tms k pc) (k * ct)) with (tms k (pad n 0 pc ct)) by (rewrite <- pad_tms, Rmult_0_r; reflexivity).
  replace (pad n 0 (tms k ps) (k * st)) with (tms k (pad n 0 ps st)) by (rewrite <- pad_tms, Rmult_0_r; reflexivity).
  replace (pad n 0 (tms j Np) 0) with (tms j (pad n 0 Np 0)) by (rewrite <- pad_tms, Rmult_0_r; reflexivity).
  replace (pad n 0 (tms j Tp) 0) with (tms j (pad n 0 Tp 0)) by (rewrite <- pad_tms, Rmult_0_r; reflexivity).
  rewrite curv_scale by exact Hk. unfold defineCurvature. cbv zeta.
  repeat apply (f_equal2 pair).
  - apply trapz_scale; intros i; unfold tms; ring.
  - apply trapz_scale; intros i; unfold tms; ring.
  - apply trapz_scale; intros i; unfold tms; ring.
  - replace (j * k * k) with ((j * k) * k) by ring. apply trapz_scale; intros i; unfold tms; ring.
  - replace (j * k * k) with ((j * k) * k) by ring. apply trapz_scale; intros i; unfold tms; ring.
Qed.

Definition sim_tot (s : scales) (t : totals) : totals :=
  let F := force s in mkTot (F * t_T t) (F * t_Y t) (F * t_Z t) (F * len s * t_Q t) (F * len s * t_My t) (F * len s * t_Mz t) (F * len s * t_Mb t).

Lemma sim_add s b az Np Tp t : proper s -> let j := force s / len s in
  tot_add (sim_blade s b) az (map (Rmult j) Np) (map (Rmult j) Tp) (sim_tot s t) = sim_tot s (tot_add b az Np Tp t).
Proof.
  intros Hs j. destruct Hs as (H1 & _). unfold tot_add. 
  cbn [sim_blade b_B b_nSector b_r b_precurve b_presweep b_precone b_Rhub b_Rtip b_precurveTip b_presweepTip].
  rewrite map_length, !aget_map, sim_thrust by exact H1.
  destruct (thrustTorque _ _ _ _ _ _ _ _ _ _ _) as [[[[T Y] Z] Q] M].
  replace (j * len s) with (force s) by (unfold j; field; lra). unfold sim_tot. cbn [t_T t_Y t_Z t_Q t_My t_Mz t_Mb].
  f_equal; unfold Rdiv; ring.
Qed.

Lemma fvals_scale k l : fvals (map (scaled k) l) = option_map (map (Rmult k)) (fvals l).
Proof.
  induction l as [|x l IH]; [reflexivity|]. cbn [map fvals]. rewrite IH.
  destruct x; cbn [scaled fval]; try reflexivity; destruct (fvals l); cbn; try reflexivity. rewrite Rmult_0_r. reflexivity.
Qed.
Lemma loads_Np s ls ls' : Forall2 (similar_load s) ls ls' -> map o_Np ls' = map (scaled (force s / len s)) (map o_Np ls) /\
  map o_Tp ls' = map (scaled (force s / len s)) (map o_Tp ls) /\ map o_W ls' = map (scaled (vel s)) (map o_W ls).
Proof.
  induction 1 as [|l l' ls ls' H _ (A & B & C)]; [auto|]. destruct H as (_ & _ & _ & _ & _ & _ & _ & HW & _ & HN & HT & _).
  cbn [map]. rewrite A, B, C, HN, HT, HW. auto.
Qed.

Lemma distributed_af npi bq b U Om p az b' ls : distributedAeroLoads npi bq b U Om p az = Ok (b', ls) -> b_af b' = b_af b /\ b_nSector b' = b_nSector b.
Proof.
  unfold distributedAeroLoads. destruct (negb _); [discriminate|]. cbv zeta. intros H. apply bind_ok in H. destruct H as (out & _ & H).
  apply ok_inj in H. apply pair_equal_spec in H. destruct H as [<- _]. split; reflexivity.
Qed.

Definition sim_state (s : scales) (af : list (airfoil fl)) (n : nat) {X Y} (Q : X -> Y -> Prop) (x : blade * X * option (list fl)) (y : blade * Y * option (list fl)) : Prop :=
  fst (fst y) = sim_blade s (fst (fst x)) /\ b_af (fst (fst x)) = af /\ b_nSector (fst (fst x)) = n /\ Q (snd (fst x)) (snd (fst y)) /\
  snd y = option_map (map (scaled (vel s))) (snd x).

Lemma sim_azimuth s npi bq U Om p : proper s -> forall azs b acc W, reynolds_ok s (b_af b) ->
  corresponds (sim_state s (b_af b) (b_nSector b) (fun t t' => t' = option_map (sim_tot s) t))
    (azimuth_loop npi bq azs b U Om p acc W)
    (azimuth_loop npi bq azs (sim_blade s b) (vel s * U) (vel s / len s * Om) p (option_map (sim_tot s) acc) (option_map (map (scaled (vel s))) W)).
Proof.
  intros Hs. induction azs as [|az azs IH]; intros b acc W Hre; cbn [azimuth_loop].
  { cbn. unfold sim_state. cbn. auto 6. }
  pose proof (sim_distributed s npi bq b U Om p (degrees az) Hs Hre) as D.
  destruct (distributedAeroLoads npi bq b U Om p (degrees az)) as [[b1 ls]|e] eqn:E1,
           (distributedAeroLoads npi bq (sim_blade s b) _ _ p (degrees az)) as [[b2 ls']|e'] eqn:E2; cbn [corresponds] in D; try contradiction; [|exact D].
  cbn [fst snd] in D. destruct D as [-> F]. cbn [bind]. destruct (distributed_af _ _ _ _ _ _ _ _ _ E1) as [A N]. rewrite <- A, <- N.
  destruct (loads_Np s ls ls' F) as (FN & FT & FW). rewrite FN, FT, FW, !fvals_scale.
  match goal with |- corresponds _ (azimuth_loop _ _ _ _ _ _ _ ?x _) (azimuth_loop _ _ _ _ _ _ _ ?y _) => replace y with (option_map (sim_tot s) x) end.
  - apply (IH b1 _ (Some (map o_W ls))). rewrite A. exact Hre.
  - destruct acc as [t|]; cbn [option_map]; [|reflexivity]. destruct (fvals (map o_Np ls)); cbn [option_map]; [|reflexivity].
    destruct (fvals (map o_Tp ls)); cbn [option_map]; [|reflexivity]. f_equal. symmetry. apply sim_add. exact Hs.
Qed.

Lemma sim_conditions s npi bq : proper s -> forall conds b W, reynolds_ok s (b_af b) ->
  corresponds (sim_state s (b_af b) (b_nSector b) (fun ts ts' => ts' = map (option_map (sim_tot s)) ts))
    (condition_loop npi bq conds b W)
    (condition_loop npi bq (map (similar_condition s) conds) (sim_blade s b) (option_map (map (scaled (vel s))) W)).
Proof.
  intros Hs. induction conds as [|[[U Om] p] conds IH]; intros b W Hre; cbn [condition_loop map].
  { cbn. unfold sim_state. cbn. auto 6. }
  cbn [similar_condition]. replace (b_nSector (sim_blade s b)) with (b_nSector b) by reflexivity.
  assert (T0 : Some tot0 = option_map (sim_tot s) (Some tot0)) by (unfold sim_tot, tot0; cbn; rewrite !Rmult_0_r; reflexivity).
  rewrite T0 at 2.
  eapply corr_bind; [apply sim_azimuth; assumption|]. intros [[b1 t] W1] [[b2 t'] W2] (A & B & N & C & D). cbn [fst snd] in *. subst b2 t' W2.
  eapply corr_bind; [apply IH; rewrite B; exact Hre|]. intros [[b3 ts] W3] [[b4 ts'] W4] (A' & B' & N' & C' & D'). cbn [fst snd] in *. subst b4 ts' W4.
  cbn. unfold sim_state. cbn. rewrite B', N', B, N. auto 6.
Qed.

Lemma sim_finish s b U Om t : proper s -> similar_out s (finish b U Om t) (finish (sim_blade s b) (vel s * U) (vel s / len s * Om) (sim_tot s t)).
Proof.
  intros (H1 & H2 & H3 & H4). unfold similar_out, finish. cbn [y_P y_tot sim_tot t_T t_Y t_Z t_Q t_My t_Mz t_Mb].
  do 7 (split; [reflexivity|]). field. lra.
Qed.
Lemma sim_coeffs s b U Om t : proper s -> b_rho b <> 0 -> U <> 0 -> b_rotorR b <> 0 ->
  same_coefficients (finish b U Om t) (finish (sim_blade s b) (vel s * U) (vel s / len s * Om) (sim_tot s t)).
Proof.
  intros (H1 & H2 & H3 & H4) Hr Hu HR. assert (HP := PI_neq0). unfold same_coefficients, finish, force.
  cbn [y_CP y_CT y_CY y_CZ y_CQ y_CMy y_CMz y_CMb sim_tot t_T t_Y t_Z t_Q t_My t_Mz t_Mb sim_blade b_rho b_rotorR]. unfold force.
  repeat match goal with |- _ /\ _ => split end; field; repeat split; try assumption; lra.
Qed.

(** The whole statement for an object. *)
Lemma sim_evaluate s npi bq b conds : proper s -> reynolds_ok s (b_af b) ->
  corresponds (fun x y => fst (fst y) = sim_blade s (fst (fst x)) /\ snd y = map (scaled (vel s)) (snd x) /\
      Forall2 (similar_opt s) (snd (fst x)) (snd (fst y)) /\
      (b_rho b <> 0 -> b_rotorR b <> 0 -> (forall c, In c conds -> fst (fst c) <> 0) ->
       Forall2 (fun o o' => match o, o' with Some a, Some b => same_coefficients a b | None, None => True | _, _ => False end) (snd (fst x)) (snd (fst y))))
    (evaluate npi bq b conds) (evaluate npi bq (sim_blade s b) (map (similar_condition s) conds)).
Proof.
  intros Hs Hre. unfold evaluate. pose proof (sim_conditions s npi bq Hs conds b None Hre) as C. cbn [option_map] in C.
  destruct (condition_loop npi bq conds b None) as [[[b1 ts] W]|e] eqn:E1,
           (condition_loop npi bq (map (similar_condition s) conds) (sim_blade s b) None) as [[[b2 ts'] W']|e'] eqn:E2; cbn [corresponds] in C; try contradiction; [|exact C].
  destruct C as (A & _ & _ & B & D). cbn [fst snd] in *. subst b2 ts' W'. cbn [bind]. destruct W as [w|]; cbn [option_map]; [|reflexivity].
  cbn [corresponds fst snd]. split; [reflexivity|]. split; [reflexivity|]. clear E1 E2.
  split.
  - revert ts. induction conds as [|[[U Om] p] conds IH]; intros ts; [constructor|]. destruct ts as [|t ts]; [constructor|]. cbn [map combine similar_condition].
    constructor; [|apply IH]. destruct t as [t|]; cbn; [apply sim_finish; exact Hs|exact I].
  - intros Hr HR HU. revert ts. induction conds as [|[[U Om] p] conds IH]; intros ts; [constructor|]. destruct ts as [|t ts]; [constructor|].
    cbn [map combine similar_condition].
    constructor; [|apply IH; intros c Hc; apply HU; right; exact Hc]. destruct t as [t|]; cbn; [|exact I].
    apply sim_coeffs; [exact Hs|exact Hr|exact (HU (U, Om, p) (or_introl eq_refl))|exact HR].
Qed.
