(** Lemmas for the bound on the relative wind (C133). *)
From Coq Require Import Reals Bool Arith List Lra Lia.
From Verif Require Import Prelim CSystem CSystemSpec Num Bem BemGeomSpec BemGeomProofs Interp InterpSpec Blade IndSpec BladeSpec FlProofs StationProofs StationLoads StationExist BladeProofs
  SimilaritySpec ParkedSpec ParkedProofs WindBoundSpec.
Import ListNotations.
Open Scope R_scope.

Lemma len2_pos x y : 0 <= len2 x y.
Proof. apply sqrt_pos. Qed.

Lemma len2_sq x y : len2 x y ^ 2 = x ^ 2 + y ^ 2.
Proof. unfold len2. rewrite <- Rsqr_pow2, Rsqr_sqrt; [reflexivity|]. nra. Qed.

Lemma len2_le x y B : 0 <= B -> x ^ 2 + y ^ 2 <= B ^ 2 -> len2 x y <= B.
Proof. intros HB H. unfold len2. rewrite <- (sqrt_pow2 B HB). apply sqrt_le_1_alt. exact H. Qed.

Lemma len2_tri a b c d : len2 (a + c) (b + d) <= len2 a b + len2 c d.
Proof.
  pose proof (len2_pos a b) as P. pose proof (len2_pos c d) as Q. pose proof (len2_sq a b) as A. pose proof (len2_sq c d) as B.
  apply len2_le; [lra|]. assert (a * c + b * d <= len2 a b * len2 c d); [|nra].
  destruct (Rle_lt_dec (a * c + b * d) 0) as [L|L]; [nra|].
  apply Rsqr_incr_0; [|lra|nra]. unfold Rsqr.
  replace (len2 a b * len2 c d * (len2 a b * len2 c d)) with (len2 a b ^ 2 * len2 c d ^ 2) by ring. rewrite A, B.
  pose proof (pow2_ge_0 (a * d - b * c)). nra.
Qed.

Lemma cs2 x : sin x ^ 2 + cos x ^ 2 = 1.
Proof. pose proof (sin2_cos2 x) as H. unfold Rsqr in H. lra. Qed.

(** The three components of the wind have the length of the wind. *)
Lemma wind_part V yw tl az cn : let sy := sin yw in let cy := cos yw in let st := sin tl in let ct := cos tl in let sa := sin az in let ca := cos az in let sc := sin cn in let cc := cos cn in
  len2 (V * ((cy * st * ca + sy * sa) * sc + cy * ct * cc)) (V * (cy * st * sa - sy * ca)) <= Rabs V.
Proof.
  intros. apply len2_le; [apply Rabs_pos|]. rewrite RPow_abs, Rabs_pos_eq by nra.
  pose proof (cs2 yw) as Y. pose proof (cs2 tl) as T. pose proof (cs2 az) as A. pose proof (cs2 cn) as C. fold sy cy in Y. fold st ct in T. fold sa ca in A. fold sc cc in C.
  clearbody sy cy st ct sa ca sc cc. set (u := cy * st * ca + sy * sa). set (w := cy * ct). set (v := cy * st * sa - sy * ca).
  assert (E : u ^ 2 + v ^ 2 + w ^ 2 = 1).
  { unfold u, v, w. replace ((cy * st * ca + sy * sa) ^ 2 + (cy * st * sa - sy * ca) ^ 2 + (cy * ct) ^ 2)
      with (cy ^ 2 * st ^ 2 * (sa ^ 2 + ca ^ 2) + sy ^ 2 * (sa ^ 2 + ca ^ 2) + cy ^ 2 * ct ^ 2) by ring. rewrite A.
    replace (cy ^ 2 * st ^ 2 * 1 + sy ^ 2 * 1 + cy ^ 2 * ct ^ 2) with (cy ^ 2 * (st ^ 2 + ct ^ 2) + sy ^ 2) by ring. rewrite T. lra. }
  assert (F : (u * sc + w * cc) ^ 2 + v ^ 2 <= 1).
  { assert ((u * sc + w * cc) ^ 2 + (u * cc - w * sc) ^ 2 = u ^ 2 + w ^ 2); [|pose proof (pow2_ge_0 (u * cc - w * sc)); lra].
    replace ((u * sc + w * cc) ^ 2 + (u * cc - w * sc) ^ 2) with ((u ^ 2 + w ^ 2) * (sc ^ 2 + cc ^ 2)) by ring. rewrite C. ring. }
  replace ((V * (u * sc + w * cc)) ^ 2 + (V * v) ^ 2) with (V ^ 2 * ((u * sc + w * cc) ^ 2 + v ^ 2)) by ring. pose proof (pow2_ge_0 V). nra.
Qed.

Lemma rotation_part Om y z cn : len2 (- Om * y * sin cn) (Om * z) <= Rabs Om * sqrt (y ^ 2 + z ^ 2).
Proof.
  apply len2_le; [apply Rmult_le_pos; [apply Rabs_pos|apply sqrt_pos]|].
  replace ((Rabs Om * sqrt (y ^ 2 + z ^ 2)) ^ 2) with (Rabs Om ^ 2 * sqrt (y ^ 2 + z ^ 2) ^ 2) by ring.
  change (sqrt (y ^ 2 + z ^ 2)) with (len2 y z). rewrite len2_sq, RPow_abs, Rabs_pos_eq by nra.
  pose proof (cs2 cn) as C. pose proof (pow2_ge_0 (cos cn)). pose proof (pow2_ge_0 (Om * y)).
  replace ((- Om * y * sin cn) ^ 2 + (Om * z) ^ 2) with ((Om * y) ^ 2 * sin cn ^ 2 + (Om * z) ^ 2) by ring. nra.
Qed.

(** The station of the azimuth frame. *)
Lemma place_coords b i : vx (place b i) = curv_x (aget (b_r b)) (aget (b_precurve b)) (b_precone b) i /\ vy (place b i) = curv_y (aget (b_presweep b)) i /\
  vz (place b i) = curv_z (aget (b_r b)) (aget (b_precurve b)) (b_precone b) i.
Proof.
  pose proof (station_az_coords (degrees (b_precone b)) (aget (b_precurve b) i) (aget (b_presweep b) i) (aget (b_r b) i)) as E. fold (place b i) in E.
  rewrite radians_degrees in E. assert (Ex := f_equal CSystemSpec.c1 E). assert (Ey := f_equal CSystemSpec.c2 E). assert (Ez := f_equal CSystemSpec.c3 E). unfold coords, CSystemSpec.c1, CSystemSpec.c2, CSystemSpec.c3 in Ex, Ey, Ez. cbn [fst snd] in Ex, Ey, Ez. rewrite Ex, Ey, Ez. unfold curv_x, curv_y, curv_z. repeat split; ring.
Qed.

Lemma wind_there_eq b U az i : shear_defined b az i ->
  wind_there b U az i = U * rpow (1 + ((curv_y (aget (b_presweep b)) i * sin (radians az) + curv_z (aget (b_r b)) (aget (b_precurve b)) (b_precone b) i * cos (radians az)) * cos (b_tilt b)
    - curv_x (aget (b_r b)) (aget (b_precurve b)) (b_precone b) i * sin (b_tilt b)) / b_hubHt b) (b_shearExp b).
Proof.
  intros H. destruct (place_coords b i) as (X & Y & Z). rewrite <- X, <- Y, <- Z. unfold wind_there, sheared.
  assert (E : above_hub b az i = (vy (place b i) * sin (radians az) + vz (place b i) * cos (radians az)) * cos (b_tilt b) - vx (place b i) * sin (b_tilt b)).
  { unfold above_hub. rewrite height_c, radians_degrees. ring. }
  rewrite <- E. destruct H as [[_ H]|H]; [rewrite rpow_Rpower by exact H; reflexivity|].
  rewrite H, rpow_0. unfold Rpower. rewrite Rmult_0_l, exp_0. reflexivity.
Qed.

Lemma wind_bound b U Om az i : shear_defined b az i -> let V := wind b U Om (radians az) in
  len2 (fst V i) (snd V i) <= Rabs (wind_there b U az i) + Rabs (Om * PI / 30) * off_axis b i.
Proof.
  intros H V. rewrite (wind_there_eq b U az i H). unfold off_axis. destruct (place_coords b i) as (_ & Y & Z). rewrite Y, Z.
  unfold V, wind, windComponents, defineCurvature. cbv zeta. cbn [fst snd]. eapply Rle_trans; [apply len2_tri|]. apply Rplus_le_compat; [apply wind_part|apply rotation_part].
Qed.

Lemma parked_wind_bound b U az i : shear_defined b az i -> let V := wind b U 0 (radians az) in len2 (fst V i) (snd V i) <= Rabs (wind_there b U az i).
Proof.
  intros H V. eapply Rle_trans; [apply (wind_bound b U 0 az i H)|]. replace (0 * PI / 30) with 0 by field. rewrite Rabs_R0. lra.
Qed.

(** ** Loads *)
Lemma coeff_bound_nonneg K clf cdf : coefficient_bound K clf cdf -> 0 <= K.
Proof. intros H. eapply Rle_trans; [apply (len2_pos (clf 0 0) (cdf 0 0))|apply H]. Qed.

Lemma zero_load_bound rho c K V : 0 <= K -> load_bound rho c K V zero_load.
Proof.
  intros HK. exists 0, 0, 0. do 3 (split; [apply rep_Fin|]). split; [split; [lra|apply Rabs_pos]|].
  replace (len2 0 0) with 0 by (unfold len2; replace (0 ^ 2 + 0 ^ 2) with 0 by ring; symmetry; apply sqrt_0).
  pose proof (Rabs_pos (rho * c)). pose proof (pow2_ge_0 V). assert (0 <= Rabs (rho * c) * V ^ 2) by nra. nra.
Qed.

Lemma parked_load_bound npi rho mu c th p Vx Vy clf cdf K V l : coefficient_bound K clf cdf -> len2 Vx Vy <= Rabs V ->
  parked_load npi rho mu c th p Vx Vy clf cdf l -> load_bound rho c K V l.
Proof.
  intros HK HV P. pose proof (coeff_bound_nonneg _ _ _ HK) as K0. unfold parked_load in P. cbv zeta in P. change (sqrt (Vx ^ 2 + Vy ^ 2)) with (len2 Vx Vy) in P.
  set (W := len2 Vx Vy) in *. assert (W0 : 0 <= W) by apply len2_pos. specialize (HK (npi / 2 - th - p) (rho * W * c / mu)).
  set (cl := clf (npi / 2 - th - p) (rho * W * c / mu)) in *. set (cd := cdf (npi / 2 - th - p) (rho * W * c / mu)) in *.
  destruct P as (_ & _ & HW & _ & _ & _ & _ & _ & HN & HT). eexists. eexists. eexists. split; [exact HW|]. split; [exact HN|]. split; [exact HT|]. split; [lra|].
  pose proof (cs2 (npi / 2)) as C. set (s := sin (npi / 2)) in *. set (k := cos (npi / 2)) in *. clearbody s k cl cd W.
  assert (V2 : W ^ 2 <= V ^ 2). { rewrite <- (Rabs_pos_eq (V ^ 2)) by nra. rewrite <- RPow_abs. pose proof (Rabs_pos V). nra. }
  assert (A0 := Rabs_pos (rho * c)). pose proof (len2_pos cl cd). pose proof (len2_sq cl cd) as Q. pose proof (pow2_ge_0 W).
  apply Rle_trans with (Rabs (rho * c) * W ^ 2 / 2 * len2 cl cd).
  - apply len2_le; [repeat apply Rmult_le_pos; lra|].
    replace ((Rabs (rho * c) * W ^ 2 / 2 * len2 cl cd) ^ 2) with (Rabs (rho * c) ^ 2 * (W ^ 2 / 2) ^ 2 * len2 cl cd ^ 2) by field.
    rewrite Q, RPow_abs, (Rabs_pos_eq ((rho * c) ^ 2)) by nra. right.
    replace ((rho * W ^ 2 / 2 * c * (cl * k + cd * s)) ^ 2 + (rho * W ^ 2 / 2 * c * (cl * s - cd * k)) ^ 2)
      with ((rho * c) ^ 2 * (W ^ 2 / 2) ^ 2 * ((cl ^ 2 + cd ^ 2) * (s ^ 2 + k ^ 2))) by field. rewrite C. ring.
  - assert (Rabs (rho * c) * W ^ 2 <= Rabs (rho * c) * V ^ 2) by (apply Rmult_le_compat_l; lra). assert (0 <= Rabs (rho * c) * W ^ 2) by (apply Rmult_le_pos; lra). apply Rmult_le_compat; lra.
Qed.

Lemma cross_wind_zero npi bq b U p az b' ls i l : distributedAeroLoads npi bq b U 0 p az = Ok (b', ls) -> nth_error ls i = Some l ->
  let V := wind b U 0 (radians az) in fst V i = 0 \/ snd V i = 0 -> l = zero_load.
Proof.
  intros E Hl V HV. destruct (station_of _ _ _ _ _ _ _ _ _ _ _ E Hl) as (_ & t & S & _). unfold station_i in S. fold V in S.
  assert (Z : iszero (Fin (fst V i)) = true \/ iszero (Fin (snd V i)) = true) by (destruct HV as [H|H]; [left|right]; rewrite H; unfold iszero; apply reqb_true; reflexivity).
  apply bind_ok in S. destruct S as (r & _ & S). apply bind_ok in S. destruct S as (c' & _ & S). apply bind_ok in S. destruct S as (af' & _ & S).
  destruct (b_inverse b).
  - apply bind_ok in S. destruct S as (cl & _ & S). apply bind_ok in S. destruct S as (cd & _ & S). apply bind_ok in S. destruct S as (al & _ & S).
    exact (zero_wind_station_inverse _ _ _ _ _ _ _ _ _ _ _ _ _ _ Z S).
  - apply bind_ok in S. destruct S as (th & _ & S). apply bind_ok in S. destruct S as (l' & El & S). apply ok_inj in S. apply pair_equal_spec in S. destruct S as [_ <-].
    exact (zero_wind_station _ _ _ _ (mkSect _ _ _ _ _ _) _ Z El).
Qed.

Lemma parked_bound npi bq b U p az b' ls i l c af clf cdf K : distributedAeroLoads npi bq b U 0 p az = Ok (b', ls) -> nth_error ls i = Some l ->
  nth_error (b_chord b) i = Some c -> nth_error (b_af b) i = Some af -> computes af clf cdf -> b_mu b <> 0 ->
  (if b_inverse b then exists al, nth_error (b_alpha b) i = Some al else exists th, nth_error (b_theta b) i = Some (Fin th)) ->
  shear_defined b az i -> coefficient_bound K clf cdf -> load_bound (b_rho b) c K (wind_there b U az i) l.
Proof.
  intros E Hl Ec Ea Haf Hmu M HS HK. pose proof (parked_wind_bound b U az i HS) as B. cbv zeta in B.
  destruct (Req_dec (fst (wind b U 0 (radians az)) i) 0) as [Hx|Hx].
  { rewrite (cross_wind_zero _ _ _ _ _ _ _ _ _ _ E Hl (or_introl Hx)). apply zero_load_bound. exact (coeff_bound_nonneg _ _ _ HK). }
  destruct (Req_dec (snd (wind b U 0 (radians az)) i) 0) as [Hy|Hy].
  { rewrite (cross_wind_zero _ _ _ _ _ _ _ _ _ _ E Hl (or_intror Hy)). apply zero_load_bound. exact (coeff_bound_nonneg _ _ _ HK). }
  destruct (b_inverse b) eqn:Hinv.
  - destruct M as (al & Et). destruct (parked_section_inverse _ _ _ _ _ _ _ _ _ _ _ _ _ _ _ Hinv E Hl Ec Et Ea Haf Hmu Hx Hy) as (_ & P). exact (parked_load_bound _ _ _ _ _ _ _ _ _ _ _ _ _ HK B P).
  - destruct M as (th & Et). assert (E' : section_loads npi bq b U 0 p az = Ok ls) by (unfold section_loads; rewrite E; reflexivity).
    pose proof (parked_section _ _ _ _ _ _ _ _ _ _ _ _ _ _ Hinv E' Hl Ec Et Ea Haf Hmu Hx Hy) as P. exact (parked_load_bound _ _ _ _ _ _ _ _ _ _ _ _ _ HK B P).
Qed.
