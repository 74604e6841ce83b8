(** The dictionaries of derivatives under a change of the units of length and time (C114). *)
From Coquelicot Require Import Coquelicot.
From Coq Require Import Reals Bool Arith List Lra Lia FunctionalExtensionality.
From Verif Require Import Prelim Num Bem BemGeomSpec IndSpec DiffSpec BemDiff Blade BladeDiff BladeDiffSpec StationProofs SimilaritySpec SimilarityProofs
  BladeDvProofs EvalDvProofs EulerSpec.
Import ListNotations.
Open Scope R_scope.

(** ** One station of the scaled rotor (exact numbers) *)
Section Station.
Variables L V : R.
Hypothesis HL : 0 < L.
Hypothesis HV : 0 < V.
Variables (rt : rotor R) (r chord theta Vx Vy : R) (af : airfoil R).
Hypothesis Haf : re_free af.
Let rt' := mkRotor (L * rt_Rhub rt) (L * rt_Rtip rt) (rt_B rt) (rt_rho rt) (rt_mu rt) (rt_opts rt) (rt_iterRe rt) (rt_pitch rt).
Let sc := mkSect r chord theta af Vx Vy.
Let sc' := mkSect (L * r) (L * chord) theta af (V * Vx) (V * Vy).

Lemma div_scaled k a b : k <> 0 -> k * a / (k * b) = a / b.
Proof. intros Hk. unfold Rdiv. rewrite Rinv_mult. replace (k * a * (/ k * / b)) with (a * / b * (k * / k)) by ring. rewrite Rinv_r by exact Hk. ring. Qed.

Lemma r_locals phi cl cd : bem_locals (rt_opts rt) (rt_B rt) (L * r) (L * chord) (L * rt_Rhub rt) (L * rt_Rtip rt) phi cl cd =
  bem_locals (rt_opts rt) (rt_B rt) r chord (rt_Rhub rt) (rt_Rtip rt) phi cl cd.
Proof.
  assert (HL0 : L <> 0) by lra. unfold bem_locals. cbn [nadd nsub nmul ndiv nopp nabs nsqrt nsin ncos nacos nexp nle nlt neq ofR R_arith].
  replace (INR (rt_B rt) / 2 / PI * (L * chord)) with (L * (INR (rt_B rt) / 2 / PI * chord)) by ring.
  replace (INR (rt_B rt) / 2 * (L * rt_Rtip rt - L * r)) with (L * (INR (rt_B rt) / 2 * (rt_Rtip rt - r))) by ring.
  replace (INR (rt_B rt) / 2 * (L * r - L * rt_Rhub rt)) with (L * (INR (rt_B rt) / 2 * (r - rt_Rhub rt))) by ring.
  rewrite !Rmult_assoc with (r1 := L) (r3 := sin phi). rewrite !div_scaled by exact HL0. reflexivity.
Qed.

Lemma r_ind phi cl cd : inductionFactors (rt_opts rt) (rt_B rt) (L * r) (L * chord) (L * rt_Rhub rt) (L * rt_Rtip rt) phi cl cd (V * Vx) (V * Vy) =
  inductionFactors (rt_opts rt) (rt_B rt) r chord (rt_Rhub rt) (rt_Rtip rt) phi cl cd Vx Vy.
Proof. unfold inductionFactors. rewrite r_locals. cbn [ndiv R_arith]. rewrite div_scaled by lra. reflexivity. Qed.

Lemma r_wind phi a ap al W Re : relativeWind phi a ap Vx Vy (rt_pitch rt) chord theta (rt_rho rt) (rt_mu rt) = (al, W, Re) ->
  exists Re', relativeWind phi a ap (V * Vx) (V * Vy) (rt_pitch rt) (L * chord) theta (rt_rho rt) (rt_mu rt) = (al, V * W, Re').
Proof.
  unfold relativeWind. cbn [nadd nsub nmul ndiv nopp nabs nsqrt nsin ncos nacos nexp nle nlt neq ofR R_arith]. intros E.
  apply pair_equal_spec in E. destruct E as [E _]. apply pair_equal_spec in E. destruct E as [<- <-].
  set (W1 := if rltb 10 (Rabs a) then Vy * (1 + ap) / cos phi else _). set (W2 := if rltb 10 (Rabs a) then V * Vy * (1 + ap) / cos phi else _).
  assert (EW : W2 = V * W1).
  { unfold W1, W2. destruct (rltb 10 (Rabs a)); [unfold Rdiv; ring|]. destruct (rltb 10 (Rabs ap)); [unfold Rdiv; ring|].
    set (u := Vx * (1 - a)). set (w := Vy * (1 + ap)).
    replace (V * Vx * (1 - a) * (V * Vx * (1 - a)) + V * Vy * (1 + ap) * (V * Vy * (1 + ap))) with ((V * V) * (u * u + w * w)) by (unfold u, w; ring).
    rewrite sqrt_mult; [|nra|nra]. rewrite sqrt_square by lra. reflexivity. }
  rewrite EW. eexists. reflexivity.
Qed.

Lemma r_pass phi a ap : bem_pass rt' sc' phi a ap = bem_pass rt sc phi a ap.
Proof.
  unfold bem_pass, rt', sc, sc'. cbn [rt_Rhub rt_Rtip rt_B rt_rho rt_mu rt_opts rt_iterRe rt_pitch s_r s_chord s_theta s_af s_Vx s_Vy].
  destruct (relativeWind phi a ap Vx Vy _ _ _ _ _) as [[al W] Re] eqn:E. destruct (r_wind _ _ _ _ _ _ E) as [Re' ->].
  rewrite (Haf al Re' Re). destruct (af al Re) as [cl cd]. rewrite r_ind. reflexivity.
Qed.
Lemma r_loop phi m : bem_loop rt' sc' phi m = bem_loop rt sc phi m.
Proof.
  induction m as [|m IH]; cbn [bem_loop]; [apply r_pass|]. rewrite IH. destruct (bem_loop rt sc phi m) as [[[[fz a] ap] cl] cd]. apply r_pass.
Qed.
Lemma r_errf m : errf rt' sc' m = errf rt sc m.
Proof. apply functional_extensionality. intros phi. unfold errf. rewrite r_loop. reflexivity. Qed.
Lemma r_run phi : runBEM rt' sc' phi = runBEM rt sc phi.
Proof.
  assert (G : forall n, (match n with O => Raise NameError | S m => Ok (bem_loop rt' sc' phi m) end) =
                        (match n with O => Raise NameError | S m => Ok (bem_loop rt sc phi m) end)) by (intros [|m]; rewrite ?r_loop; reflexivity).
  exact (G (rt_iterRe rt)).
Qed.

(** Loads per unit length of the scaled station. *)
Definition grown (k : R) (l l' : sload R) : Prop := o_Np l' = k * o_Np l /\ o_Tp l' = k * o_Tp l.

Lemma r_loads phi rot : corresponds (grown (V ^ 2 * L)) (loads rt phi rot sc) (loads rt' phi rot sc').
Proof.
  unfold loads. change (rt_pitch rt') with (rt_pitch rt). change (rt_rho rt') with (rt_rho rt). change (rt_mu rt') with (rt_mu rt).
  cbn [sc sc' s_r s_chord s_theta s_af s_Vx s_Vy neq ofR R_arith]. fold sc. fold sc'.
  replace (reqb (V * Vx) 0) with (reqb Vx 0) by (symmetry; apply reqb_scale; exact HV).
  replace (reqb (V * Vy) 0) with (reqb Vy 0) by (symmetry; apply reqb_scale; exact HV).
  destruct (andb _ _); [|split; cbn; ring].
  assert (K : forall a ap cl cd, corresponds (grown (V ^ 2 * L))
     (let '(alpha, W, Re) := relativeWind phi a ap Vx Vy (rt_pitch rt) chord theta (rt_rho rt) (rt_mu rt) in
      let cn := nadd (nmul cl (ncos phi)) (nmul cd (nsin phi)) in let ct := nsub (nmul cl (nsin phi)) (nmul cd (ncos phi)) in
      let q := nmul (nmul (ofR (1 / 2)) (rt_rho rt)) (nmul W W) in
      Ok (mkLoad a ap (nmul (nmul cn q) chord) (nmul (nmul ct q) chord) (rad2deg alpha) cl cd cn ct q W Re))
     (let '(alpha, W, Re) := relativeWind phi a ap (V * Vx) (V * Vy) (rt_pitch rt) (L * chord) theta (rt_rho rt) (rt_mu rt) in
      let cn := nadd (nmul cl (ncos phi)) (nmul cd (nsin phi)) in let ct := nsub (nmul cl (nsin phi)) (nmul cd (ncos phi)) in
      let q := nmul (nmul (ofR (1 / 2)) (rt_rho rt)) (nmul W W) in
      Ok (mkLoad a ap (nmul (nmul cn q) (L * chord)) (nmul (nmul ct q) (L * chord)) (rad2deg alpha) cl cd cn ct q W Re))).
  { intros a ap cl cd. destruct (relativeWind phi a ap Vx Vy _ _ _ _ _) as [[al W] Re] eqn:E. destruct (r_wind _ _ _ _ _ _ E) as [Re' ->].
    cbv zeta. cbn [corresponds]. unfold grown. cbn [o_Np o_Tp nadd nsub nmul nsin ncos ofR R_arith]. split; ring. }
  destruct rot.
  - rewrite r_run. destruct (runBEM rt sc phi) as [[[[[fz a] ap] cl] cd]|e]; cbn [bind]; [apply K|reflexivity].
  - destruct (relativeWind phi 0 0 Vx Vy _ _ _ _ _) as [[al W] Re] eqn:E. destruct (r_wind _ _ _ _ _ _ E) as [Re' ->].
    rewrite (Haf al Re' Re). destruct (af al Re) as [cl cd]. cbn [bind]. apply K.
Qed.

Lemma r_station npi bq rot : corresponds (grown (V ^ 2 * L)) (solve_station npi bq rt rot sc) (solve_station npi bq rt' rot sc').
Proof.
  unfold solve_station. change (rt_iterRe rt') with (rt_iterRe rt). apply (corr_bind eq).
  - destruct rot; [|reflexivity].
    assert (G : forall n, corresponds eq (match n with O => Raise NameError | S m => solve npi bq (errf rt sc m) end)
                                         (match n with O => Raise NameError | S m => solve npi bq (errf rt' sc' m) end)).
    { intros [|m]; [reflexivity|]. rewrite r_errf. apply corr_refl. }
    exact (G (rt_iterRe rt)).
  - intros phi ? <-. apply (corr_bind (grown (V ^ 2 * L))); [apply r_loads|]. intros l l' K. rewrite !nan_guard_R. exact K.
Qed.
End Station.

(** ** The blade *)
Section Blade.
Variables L V : R.
Hypothesis HL : 0 < L.
Hypothesis HV : 0 < V.
Variables (npi : R) (bq : rootfinder R) (fx : fixed).
Hypothesis Haf : forall i, re_free (f_af fx i).

Lemma wind_scaled D : wind_d fx (scaled_design L V D) = (tms V (fst (wind_d fx D)), tms V (snd (wind_d fx D))).
Proof.
  unfold wind_d, scaled_design. cbn [x_r x_precurve x_presweep x_precone x_yaw x_tilt x_azimuth x_Uinf x_Omega x_hubHt x_shear].
  change (fun i : nat => L * x_r D i) with (tms L (x_r D)). change (fun i : nat => L * x_precurve D i) with (tms L (x_precurve D)).
  change (fun i : nat => L * x_presweep D i) with (tms L (x_presweep D)).
  unfold windComponents. rewrite curv_scale by exact HL. unfold defineCurvature. cbn [fst snd].
  set (X := curv_x _ _ _). set (Z := curv_z _ _ _). set (Y := curv_y _). set (C := curv_cone _ _ _).
  set (az := radians (x_azimuth D)). set (ti := radians (x_tilt D)).
  assert (Q : forall i, ((tms L Y i * sin az + tms L Z i * cos az) * cos ti - tms L X i * sin ti) / (L * x_hubHt D) =
     ((Y i * sin az + Z i * cos az) * cos ti - X i * sin ti) / x_hubHt D).
  { intros i. rewrite <- (div_scaled L _ (x_hubHt D)) by lra. unfold tms. f_equal. ring. }
  apply (f_equal2 pair); apply functional_extensionality; intros i; rewrite Q; unfold tms; field; lra.
Qed.

Lemma rotating_scaled D : rotating_d (scaled_design L V D) = rotating_d D.
Proof. unfold rotating_d, scaled_design. cbn [x_Omega]. rewrite reqb_scale; [reflexivity|]. apply Rdiv_lt_0_compat; assumption. Qed.

Lemma result_scaled D i : corresponds (grown (V ^ 2 * L)) (station_result npi bq fx D i) (station_result npi bq fx (scaled_design L V D) i).
Proof.
  unfold station_result. rewrite rotating_scaled. unfold sect_d. rewrite wind_scaled. cbn [fst snd]. unfold tms.
  exact (r_station L V HL HV (rotor_d fx D) (x_r D i) (x_chord D i) (radians (x_theta D i)) (fst (wind_d fx D) i) (snd (wind_d fx D) i)
           (f_af fx i) (Haf i) npi bq (rotating_d D)).
Qed.

Lemma errf_scaled D i m : errf (rotor_d fx (scaled_design L V D)) (sect_d fx (scaled_design L V D) i) m = errf (rotor_d fx D) (sect_d fx D i) m.
Proof.
  unfold sect_d. rewrite wind_scaled. cbn [fst snd]. unfold tms.
  exact (r_errf L V HL HV (rotor_d fx D) (x_r D i) (x_chord D i) (radians (x_theta D i)) (fst (wind_d fx D) i) (snd (wind_d fx D) i)
           (f_af fx i) (Haf i) m).
Qed.

Lemma blade_Np_scaled D i : blade_Np npi bq fx (scaled_design L V D) i = V ^ 2 * L * blade_Np npi bq fx D i.
Proof.
  unfold blade_Np, Np_of. pose proof (result_scaled D i) as C. destruct (station_result npi bq fx D i) as [l|], (station_result npi bq fx (scaled_design L V D) i) as [l'|];
    try contradiction C; [apply C|ring].
Qed.
Lemma blade_Tp_scaled D i : blade_Tp npi bq fx (scaled_design L V D) i = V ^ 2 * L * blade_Tp npi bq fx D i.
Proof.
  unfold blade_Tp, Tp_of. pose proof (result_scaled D i) as C. destruct (station_result npi bq fx D i) as [l|], (station_result npi bq fx (scaled_design L V D) i) as [l'|];
    try contradiction C; [apply C|ring].
Qed.

Lemma blade_out_scaled D az : blade_out npi bq fx (scaled_design L V D) az =
  (let '(T, Y, Z, Q, M) := blade_out npi bq fx D az in
   (V ^ 2 * L ^ 2 * T, V ^ 2 * L ^ 2 * Y, V ^ 2 * L ^ 2 * Z, V ^ 2 * L ^ 3 * Q, V ^ 2 * L ^ 3 * M)).
Proof.
  unfold blade_out. change (sector_design (scaled_design L V D) az) with (scaled_design L V (sector_design D az)).
  replace (blade_Np npi bq fx (scaled_design L V (sector_design D az))) with (tms (V ^ 2 * L) (blade_Np npi bq fx (sector_design D az)))
    by (apply functional_extensionality; intros i; symmetry; apply blade_Np_scaled).
  replace (blade_Tp npi bq fx (scaled_design L V (sector_design D az))) with (tms (V ^ 2 * L) (blade_Tp npi bq fx (sector_design D az)))
    by (apply functional_extensionality; intros i; symmetry; apply blade_Tp_scaled).
  unfold scaled_design. cbn [x_r x_precurve x_presweep x_precone x_Rhub x_Rtip x_precurveTip x_presweepTip].
  change (fun i : nat => L * x_r D i) with (tms L (x_r D)). change (fun i : nat => L * x_precurve D i) with (tms L (x_precurve D)).
  change (fun i : nat => L * x_presweep D i) with (tms L (x_presweep D)).
  rewrite sim_thrust by exact HL. destruct (thrustTorque _ _ _ _ _ _ _ _ _ _ _) as [[[[T Y] Z] Q] M].
  repeat apply (f_equal2 pair); ring.
Qed.

Lemma list_sum_scale k f g l : (forall x, f x = k * g x) -> list_sum f l = k * list_sum g l.
Proof. intros E. induction l as [|x l IH]; cbn [list_sum fold_right]; [ring|]. unfold list_sum in IH. rewrite IH, E. ring. Qed.

Lemma totals_scaled D : let T := rotor_totals npi bq fx D in
  rotor_totals npi bq fx (scaled_design L V D) =
  mkTot (V ^ 2 * L ^ 2 * t_T T) (V ^ 2 * L ^ 2 * t_Y T) (V ^ 2 * L ^ 2 * t_Z T) (V ^ 2 * L ^ 3 * t_Q T) (V ^ 2 * L ^ 3 * t_My T)
    (V ^ 2 * L ^ 3 * t_Mz T) (V ^ 2 * L ^ 3 * t_Mb T).
Proof.
  cbv zeta. unfold rotor_totals. cbn [t_T t_Y t_Z t_Q t_My t_Mz t_Mb].
  assert (E : forall az, let o := blade_out npi bq fx D az in let o' := blade_out npi bq fx (scaled_design L V D) az in
    oT o' = V ^ 2 * L ^ 2 * oT o /\ oY o' = V ^ 2 * L ^ 2 * oY o /\ oZ o' = V ^ 2 * L ^ 2 * oZ o /\ oQ o' = V ^ 2 * L ^ 3 * oQ o /\ oM o' = V ^ 2 * L ^ 3 * oM o).
  { intros az. cbv zeta. rewrite blade_out_scaled. destruct (blade_out npi bq fx D az) as [[[[T Y] Z] Q] M]. cbn. repeat split; ring. }
  cbv zeta in E. apply totals_eq; cbn [t_T t_Y t_Z t_Q t_My t_Mz t_Mb].
  - rewrite (list_sum_scale (V ^ 2 * L ^ 2) _ (fun az => oT (blade_out npi bq fx D az))); [unfold Rdiv; ring|]. intros az. apply (E az).
  - rewrite (list_sum_scale (V ^ 2 * L ^ 2) _ (fun az => oY (blade_out npi bq fx D az) * cos az - oZ (blade_out npi bq fx D az) * sin az)); [unfold Rdiv; ring|].
    intros az. destruct (E az) as (_ & -> & -> & _). ring.
  - rewrite (list_sum_scale (V ^ 2 * L ^ 2) _ (fun az => oZ (blade_out npi bq fx D az) * cos az + oY (blade_out npi bq fx D az) * sin az)); [unfold Rdiv; ring|].
    intros az. destruct (E az) as (_ & -> & -> & _). ring.
  - rewrite (list_sum_scale (V ^ 2 * L ^ 3) _ (fun az => oQ (blade_out npi bq fx D az))); [unfold Rdiv; ring|]. intros az. apply (E az).
  - rewrite (list_sum_scale (V ^ 2 * L ^ 3) _ (fun az => oM (blade_out npi bq fx D az) * cos az)); [unfold Rdiv; ring|].
    intros az. destruct (E az) as (_ & _ & _ & _ & ->). ring.
  - rewrite (list_sum_scale (V ^ 2 * L ^ 3) _ (fun az => oM (blade_out npi bq fx D az) * sin az)); [unfold Rdiv; ring|].
    intros az. destruct (E az) as (_ & _ & _ & _ & ->). ring.
  - rewrite (list_sum_scale (V ^ 2 * L ^ 3) _ (fun az => oM (blade_out npi bq fx D az))); [unfold Rdiv; ring|]. intros az. apply (E az).
Qed.
End Blade.

(** ** Growing at the relative rates a (lengths) and b (speeds) *)
Definition growing (a b : R) (D : design) (s : R) : design := scaled_design (exp (a * s)) (exp (b * s)) D.

Lemma scaled_one D : scaled_design 1 1 D = D.
Proof.
  assert (A : forall f : arr, (fun i => 1 * f i) = f) by (intros f; apply functional_extensionality; intros; ring).
  unfold scaled_design. rewrite !A. unfold Rdiv. rewrite Rinv_1, !Rmult_1_l. destruct D. reflexivity.
Qed.
Lemma growing_0 a b D : growing a b D 0 = D.
Proof. unfold growing. rewrite !Rmult_0_r, exp_0. apply scaled_one. Qed.

Lemma d_grow k c : is_derive (fun s => exp (k * s) * c) 0 (k * c).
Proof. auto_derive; [exact I|]. rewrite Rmult_0_r, exp_0. ring. Qed.

Lemma growing_derive n a b D : design_derive n (growing a b D) 0 (scaling_rates a b D).
Proof.
  unfold design_derive, arrays_derive, growing, scaled_design, scaling_rates.
  cbn [x_r x_chord x_theta x_precurve x_presweep x_precone x_tilt x_hubHt x_Rhub x_Rtip x_precurveTip x_presweepTip x_yaw x_shear x_azimuth x_Uinf x_Omega x_pitch].
  refine (conj _ (conj _ (conj _ (conj _ (conj _ (conj _ (conj _ (conj _ (conj _ (conj _ (conj _ (conj _ (conj _ (conj _ (conj _ (conj _ (conj _ _)))))))))))))))));
    intros; try apply d_grow; try apply (@is_derive_const R_AbsRing R_NormedModule).
  apply (is_derive_ext (fun s => exp ((b - a) * s) * x_Omega D)); [|apply d_grow].
  intros s. unfold Rdiv. rewrite <- exp_Ropp, <- exp_plus. f_equal. f_equal. ring.
Qed.

Section Rates.
Variables (npi : R) (bq : rootfinder R) (fx : fixed) (a b : R) (D : design).
Hypothesis Haf : forall i, re_free (f_af fx i).

Lemma growing_wind : wind_ok fx (fun _ => D) 0 -> wind_ok fx (growing a b D) 0.
Proof.
  unfold wind_ok. rewrite growing_0. intros (H1 & H2 & H3). split; [exact H1|]. split; [exact H2|]. intros i Hi.
  destruct (H3 i Hi) as [H|H]; [left; exact H|right]. intros s. unfold growing, scaled_design. cbn [x_shear]. exact (H 0).
Qed.

Lemma growing_station i : station_ok npi bq fx (fun _ => D) 0 i -> station_ok npi bq fx (growing a b D) 0 i.
Proof.
  intros [H|H]; [left|right].
  - unfold rotating_ok in *. cbv zeta in *. rewrite growing_0. destruct H as (H1 & H2 & H3 & phi & _ & H5 & H6 & H7 & H8 & H9).
    apply locally_singleton in H5. destruct H5 as [H5 H5'].
    split; [exact H1|]. split; [exact H2|]. split; [exact H3|]. exists (fun _ => phi 0). split; [apply ex_derive_const|]. split.
    { apply filter_forall. intros s. unfold growing. rewrite errf_scaled; [split; assumption|apply exp_pos|apply exp_pos|exact Haf]. }
    split; [exact H6|]. split; [exact H7|]. split; [exact H8|exact H9].
  - unfold parked_ok in *. cbv zeta in *. rewrite growing_0. destruct H as (H1 & H2). split; [|exact H2].
    intros s. unfold growing, scaled_design. cbn [x_Omega]. rewrite (H1 0). ring.
Qed.

Lemma unique_rate (f : R -> R) k c l : (forall s, f s = exp (k * s) * c) -> is_derive f 0 l -> l = k * c.
Proof.
  intros E H. assert (K : is_derive f 0 (k * c)) by (apply (is_derive_ext (fun s => exp (k * s) * c)); [intros; symmetry; apply E|apply d_grow]).
  apply is_derive_unique in H. apply is_derive_unique in K. congruence.
Qed.

Lemma exp_combine s m k : exp (b * s) ^ m * exp (a * s) ^ k = exp ((INR m * b + INR k * a) * s).
Proof.
  assert (P : forall x j, exp x ^ j = exp (INR j * x)).
  { intros x j. induction j as [|j IH]; [cbn; rewrite Rmult_0_l, exp_0; reflexivity|]. cbn [pow]. rewrite IH, <- exp_plus, S_INR. f_equal. ring. }
  rewrite !P, <- exp_plus. f_equal. ring.
Qed.

Lemma loads_euler Np Tp dNp dTp : (2 <= f_n fx)%nat -> wind_ok fx (fun _ => D) 0 -> radial_ok (f_n fx) D (scaling_rates a b D) ->
  (forall i, (i < f_n fx)%nat -> station_ok npi bq fx (fun _ => D) 0 i) -> distributed_dv npi bq fx D = Ok (Np, Tp, dNp, dTp) ->
  forall i, (i < f_n fx)%nat -> exists l, station_result npi bq fx D i = Ok l /\
  load_rate (f_n fx) dNp (scaling_rates a b D) i = (2 * b + a) * Np i /\
  (o_ct l <> 0 -> load_rate (f_n fx) dTp (scaling_rates a b D) i = (2 * b + a) * Tp i).
Proof.
  intros Hn Hw Hr Hs E i Hi. assert (E' : distributed_dv npi bq fx (growing a b D 0) = Ok (Np, Tp, dNp, dTp)) by (rewrite growing_0; exact E).
  assert (Hr' : radial_ok (f_n fx) (growing a b D 0) (scaling_rates a b D)) by (rewrite growing_0; exact Hr).
  destruct (distributed_rate npi bq fx (growing a b D) 0 (scaling_rates a b D) Np Tp dNp dTp Hn (growing_derive (f_n fx) a b D) (growing_wind Hw) Hr'
    (fun i Hi => growing_station i (Hs i Hi)) E' i Hi) as (l & H1 & H2 & H3 & H4 & H5). rewrite growing_0 in H1.
  exists l. split; [exact H1|].
  assert (EN : blade_Np npi bq fx D i = Np i) by (rewrite H2; unfold blade_Np; rewrite H1; reflexivity).
  assert (ET : blade_Tp npi bq fx D i = Tp i) by (rewrite H3; unfold blade_Tp; rewrite H1; reflexivity).
  assert (X : forall s, exp (b * s) ^ 2 * exp (a * s) = exp ((2 * b + a) * s)).
  { intros s. pose proof (exp_combine s 2 1) as X. cbn [pow INR] in X. cbn [pow]. rewrite !Rmult_1_r in *. rewrite X. f_equal. ring. }
  split.
  - apply (unique_rate _ (2 * b + a) (Np i)) in H4; [exact H4|]. intros s. unfold growing.
    rewrite blade_Np_scaled, EN, X; [reflexivity|apply exp_pos|apply exp_pos|exact Haf].
  - intros Hc. specialize (H5 Hc). apply (unique_rate _ (2 * b + a) (Tp i)) in H5; [exact H5|]. intros s. unfold growing.
    rewrite blade_Tp_scaled, ET, X; [reflexivity|apply exp_pos|apply exp_pos|exact Haf].
Qed.

End Rates.

Lemma growing_sectors npi bq fx a b D : (forall i, re_free (f_af fx i)) -> sectors_ok npi bq fx (fun _ => D) 0 (scaling_rates a b D) ->
  sectors_ok npi bq fx (growing a b D) 0 (scaling_rates a b D).
Proof.
  intros Haf (H1 & H2 & H3). unfold sectors_ok. rewrite growing_0. split; [exact H1|]. split; [exact H2|]. intros az Haz. destruct (H3 az Haz) as [W S1].
  change (fun s => sector_design (growing a b D s) az) with (growing a b (sector_design D az)). split.
  - apply growing_wind. exact W.
  - intros i Hi. destruct (S1 i Hi) as [S2 S3]. split; [apply growing_station; assumption|]. rewrite ?growing_0. exact S3.
Qed.

Lemma evaluate_euler npi bq fx a b D E : (forall i, re_free (f_af fx i)) -> (2 <= f_n fx)%nat -> (1 <= f_nSector fx)%nat ->
  sectors_ok npi bq fx (fun _ => D) 0 (scaling_rates a b D) -> evaluate_dv npi bq fx D = Ok E ->
  let rate e := total_rate (f_n fx) e (scaling_rates a b D) in let t := ev_tot E in
  rate (ev_dT E) = (2 * b + 2 * a) * t_T t /\ rate (ev_dY E) = (2 * b + 2 * a) * t_Y t /\ rate (ev_dZ E) = (2 * b + 2 * a) * t_Z t /\
  rate (ev_dQ E) = (2 * b + 3 * a) * t_Q t /\ rate (ev_dMy E) = (2 * b + 3 * a) * t_My t /\ rate (ev_dMz E) = (2 * b + 3 * a) * t_Mz t /\
  rate (ev_dMb E) = (2 * b + 3 * a) * t_Mb t /\ rate (ev_dP E) = (3 * b + 2 * a) * ev_P E.
Proof.
  intros Haf Hn Hm Hok HE. cbv zeta. assert (HE' : evaluate_dv npi bq fx (growing a b D 0) = Ok E) by (rewrite growing_0; exact HE).
  destruct (evaluate_rate npi bq fx (growing a b D) 0 (scaling_rates a b D) E Hn Hm (growing_derive (f_n fx) a b D) (growing_sectors npi bq fx a b D Haf Hok) HE')
    as (ET & EP & R1 & R2 & R3 & R4 & R5 & R6 & R7 & R8). rewrite growing_0 in ET, EP. rewrite EP, ET.
  assert (X : forall s m k, exp (b * s) ^ m * exp (a * s) ^ k = exp ((INR m * b + INR k * a) * s)) by (intros; apply exp_combine).
  assert (TS : forall s, rotor_totals npi bq fx (growing a b D s) = _) by (intros s; exact (totals_scaled (exp (a * s)) (exp (b * s)) (exp_pos _) (exp_pos _) npi bq fx Haf D)).
  assert (X2 : forall s, exp (b * s) ^ 2 * exp (a * s) ^ 2 = exp ((2 * b + 2 * a) * s)) by (intros s; rewrite (X s 2%nat 2%nat); f_equal; cbn [INR]; ring).
  assert (X3 : forall s, exp (b * s) ^ 2 * exp (a * s) ^ 3 = exp ((2 * b + 3 * a) * s)) by (intros s; rewrite (X s 2%nat 3%nat); f_equal; cbn [INR]; ring).
  refine (conj _ (conj _ (conj _ (conj _ (conj _ (conj _ (conj _ _)))))));
    (eapply unique_rate; [|eassumption]); intros s; cbv beta; rewrite ?TS; cbn [t_T t_Y t_Z t_Q t_My t_Mz t_Mb]; rewrite ?X2, ?X3; try reflexivity.
  unfold power. cbn [t_Q]. rewrite ?X3. unfold growing, scaled_design. cbn [x_Omega].
  unfold Rdiv. rewrite <- exp_Ropp. 
  replace (exp ((3 * b + 2 * a) * s)) with (exp ((2 * b + 3 * a) * s) * (exp (b * s) * exp (- (a * s)))) by (rewrite <- !exp_plus; f_equal; ring). ring.
Qed.

Lemma coefficients_euler npi bq fx a b D E : (forall i, re_free (f_af fx i)) -> (2 <= f_n fx)%nat -> (1 <= f_nSector fx)%nat ->
  sectors_ok npi bq fx (fun _ => D) 0 (scaling_rates a b D) -> evaluate_dv npi bq fx D = Ok E ->
  rotor_radius D <> 0 -> x_Uinf D <> 0 -> f_rho fx <> 0 ->
  let rate e := total_rate (f_n fx) e (scaling_rates a b D) in let t := ev_tot E in
  (t_T t <> 0 -> rate (ev_dCT E) = 0) /\ (t_Y t <> 0 -> rate (ev_dCY E) = 0) /\ (t_Z t <> 0 -> rate (ev_dCZ E) = 0) /\
  (t_Q t <> 0 -> rate (ev_dCQ E) = 0) /\ (t_My t <> 0 -> rate (ev_dCMy E) = 0) /\ (t_Mz t <> 0 -> rate (ev_dCMz E) = 0) /\
  (t_Mb t <> 0 -> rate (ev_dCMb E) = 0) /\ (t_Q t <> 0 -> x_Omega D <> 0 -> rate (ev_dCP E) = 0).
Proof.
  intros Haf Hn Hm Hok HE HR HU Hrho. cbv zeta. assert (HE' : evaluate_dv npi bq fx (growing a b D 0) = Ok E) by (rewrite growing_0; exact HE).
  pose proof (growing_sectors npi bq fx a b D Haf Hok) as Hok'.
  destruct (evaluate_rate npi bq fx (growing a b D) 0 (scaling_rates a b D) E Hn Hm (growing_derive (f_n fx) a b D) Hok' HE') as (ET & _).
  rewrite growing_0 in ET. rewrite ET.
  assert (HR' : rotor_radius (growing a b D 0) <> 0) by (rewrite growing_0; exact HR).
  assert (HU' : x_Uinf (growing a b D 0) <> 0) by (rewrite growing_0; exact HU).
  destruct (evaluate_coeff_rate npi bq fx (growing a b D) 0 (scaling_rates a b D) E Hn Hm (growing_derive (f_n fx) a b D) Hok' HE' HR' HU' Hrho)
    as (R1 & R2 & R3 & R4 & R5 & R6 & R7 & R8). rewrite growing_0 in R1, R2, R3, R4, R5, R6, R7, R8.
  assert (TS : forall s, rotor_totals npi bq fx (growing a b D s) = _) by (intros s; exact (totals_scaled (exp (a * s)) (exp (b * s)) (exp_pos _) (exp_pos _) npi bq fx Haf D)).
  assert (FS : forall s, force_scale fx (growing a b D s) = exp (b * s) ^ 2 * exp (a * s) ^ 2 * force_scale fx D).
  { intros s. unfold force_scale, rotor_radius, growing, scaled_design. cbn [x_Uinf x_Rtip x_precone x_precurveTip]. ring. }
  assert (MS : forall s, moment_scale fx (growing a b D s) = exp (b * s) ^ 2 * exp (a * s) ^ 3 * moment_scale fx D).
  { intros s. unfold moment_scale. rewrite FS. unfold rotor_radius, growing, scaled_design. cbn [x_Uinf x_Rtip x_precone x_precurveTip]. ring. }
  assert (NZ : forall s m k, exp (b * s) ^ m * exp (a * s) ^ k <> 0) by (intros; apply Rmult_integral_contrapositive_currified; apply pow_nonzero, Rgt_not_eq, exp_pos).
  assert (Z : forall (f : R -> R) l, is_derive f 0 l -> (forall s, f s = f 0) -> l = 0).
  { intros f l H E0. apply is_derive_unique in H. rewrite <- H. rewrite (Derive_ext f (fun _ => f 0)) by exact E0. apply Derive_const. }
  refine (conj _ (conj _ (conj _ (conj _ (conj _ (conj _ (conj _ _))))))).
  - intros K. apply (Z _ _ (R1 K)). intros s. rewrite growing_0, TS, FS. cbn [t_T]. apply div_scaled, NZ.
  - intros K. apply (Z _ _ (R2 K)). intros s. rewrite growing_0, TS, FS. cbn [t_Y]. apply div_scaled, NZ.
  - intros K. apply (Z _ _ (R3 K)). intros s. rewrite growing_0, TS, FS. cbn [t_Z]. apply div_scaled, NZ.
  - intros K. apply (Z _ _ (R4 K)). intros s. rewrite growing_0, TS, MS. cbn [t_Q]. apply div_scaled, NZ.
  - intros K. apply (Z _ _ (R5 K)). intros s. rewrite growing_0, TS, MS. cbn [t_My]. apply div_scaled, NZ.
  - intros K. apply (Z _ _ (R6 K)). intros s. rewrite growing_0, TS, MS. cbn [t_Mz]. apply div_scaled, NZ.
  - intros K. apply (Z _ _ (R7 K)). intros s. rewrite growing_0, TS, MS. cbn [t_Mb]. apply div_scaled, NZ.
  - intros K K'. apply (Z _ _ (R8 K K')). intros s. rewrite growing_0, FS. unfold power. rewrite TS. cbn [t_Q].
    unfold growing, scaled_design. cbn [x_Omega x_Uinf].
    set (A := exp (a * s)) in *. set (B := exp (b * s)) in *. assert (0 < A) by apply exp_pos. assert (0 < B) by apply exp_pos.
    replace (B ^ 2 * A ^ 3 * t_Q (rotor_totals npi bq fx D) * (B / A * x_Omega D) * PI / 30)
      with ((B ^ 3 * A ^ 2) * (t_Q (rotor_totals npi bq fx D) * x_Omega D * PI / 30)) by (field; lra).
    replace (B ^ 2 * A ^ 2 * force_scale fx D * (B * x_Uinf D)) with ((B ^ 3 * A ^ 2) * (force_scale fx D * x_Uinf D)) by ring.
    apply div_scaled. apply Rmult_integral_contrapositive_currified; apply pow_nonzero; lra.
Qed.
