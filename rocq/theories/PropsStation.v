(** Property theorems for the solution at one blade station (C19 loads part, C20-C25),
    ccblade.py:617-812, 963-1033. *)
From Coquelicot Require Import Coquelicot.
From Coq Require Import Reals Bool Arith Lia Lra.
From Verif Require Import Prelim Cont Num Bem Blade BladeSpec IndSpec IndProofs FlProofs.
From Verif Require Import StationProofs StationWitness StationLoads StationExist.
Open Scope R_scope.

(** A root finder meeting every contract used below: rejects equal strict signs, otherwise returns
    the midpoint. *)
Definition midpoint (f : fl -> fl) (a b : fl) : res fl :=
  if flt (Fin 0) (fmul (f a) (f b)) then Raise ValueError
  else match fval a, fval b with Some x, Some y => Ok (Fin ((x + y) / 2)) | _, _ => Raise ValueError end.

Example midpoint_contracts : root_inside midpoint /\ rejects_same_sign midpoint /\ accepts_sign_change midpoint.
Proof.
  split; [|split].
  - intros f a b x Hab. unfold midpoint. cbn [fval]. destruct (flt _ _); [discriminate|].
    intros E. apply ok_inj in E. subst. eexists. split; [reflexivity|]. lra.
  - intros f a b H. unfold midpoint. apply product_sign in H. rewrite H. reflexivity.
  - intros f a b _ _ H. unfold midpoint. cbn [fval].
    destruct (flt _ _) eqn:E; [|eauto]. apply product_sign in E. exfalso.
    assert (PN : forall x, pos x -> neg x -> False).
    { intros y [->|(u & -> & Ha)] [E'|(v & E' & Hb)]; try discriminate. injection E'; intros; subst; lra. }
    destruct E as [[? ?]|[? ?]], H as [[? ?]|[? ?]]; eauto.
Qed.

(** C20. The interval searched is one of the three documented ones, chosen by the documented rule,
    and the angle used is one the root finder returned from that interval (or 0 on ValueError). *)
Theorem C20_bracket : forall npi (bq : rootfinder fl) f phi, 1 / 10 < npi -> root_inside bq ->
  solve npi bq f = Ok phi ->
  exists lo hi, documented_bracket npi f lo hi /\
    ((bq f (Fin lo) (Fin hi) = Ok phi /\ exists v, phi = Fin v /\ lo <= v <= hi) \/
     (bq f (Fin lo) (Fin hi) = Raise ValueError /\ phi = Fin 0)).
Proof. exact solve_bracket. Qed.
Print Assumptions C20_bracket.

(** C20. The same for a station as a whole, read off the angle of attack it reports. *)
Theorem C20_station_angle : forall npi bq rt (sc : sect fl) m l t p, 1 / 10 < npi -> root_inside bq ->
  rt_iterRe rt = S m -> s_theta sc = Fin t -> rt_pitch rt = Fin p ->
  solve_station npi bq rt true sc = Ok l ->
  exists lo hi, documented_bracket npi (errf rt sc m) lo hi /\
   ((exists v, bq (errf rt sc m) (Fin lo) (Fin hi) = Ok (Fin v) /\ lo <= v <= hi /\
       (rep (o_alpha l) (degrees (v - (t + p))) \/ (o_Np l = Fin 0 /\ o_Tp l = Fin 0 /\ o_alpha l = Fin 0))) \/
    (bq (errf rt sc m) (Fin lo) (Fin hi) = Raise ValueError /\
       (rep (o_alpha l) (degrees (0 - (t + p))) \/ (o_Np l = Fin 0 /\ o_Tp l = Fin 0 /\ o_alpha l = Fin 0)))).
Proof. exact station_angle. Qed.
Print Assumptions C20_station_angle.

(** The documented intervals exclude each other and one always applies. *)
Theorem C20_bracket_unique : forall p f, exists lo hi, documented_bracket p f lo hi /\
  forall lo' hi', documented_bracket p f lo' hi' -> lo' = lo /\ hi' = hi.
Proof.
  intros p f. destruct (documented_bracket_exists p f) as (lo & hi & D & _). exists lo, hi.
  split; [exact D|]. intros lo' hi' D'. exact (documented_bracket_fun _ _ _ _ _ _ D' D).
Qed.
Print Assumptions C20_bracket_unique.

Example C20_example : exists l, solve_station 3 midpoint w_rotor true (w_sect (fun _ => 1)) = Ok l /\
  1 / 10 < 3 /\ rt_iterRe w_rotor = 1%nat.
Proof.
  unfold solve_station. change (rt_iterRe w_rotor) with 1%nat. cbv iota.
  assert (exists phi, solve 3 midpoint (errf w_rotor (w_sect (fun _ => 1)) 0) = Ok phi) as (phi & ->).
  { unfold solve. destruct (bracket _ _) as [lo hi]. unfold midpoint.
    destruct (flt _ _); [eauto|]. destruct (fval lo); [destruct (fval hi)|]; eauto. }
  cbn [bind]. destruct (loads_ok w_rotor phi true (w_sect (fun _ => 1)) 0 eq_refl) as (l0 & ->). cbn [bind].
  destruct (nan_guard_ok l0) as (l & ->). exists l. repeat split; lra.
Qed.

(** C21. False as stated: with a loss correction on (the default), no input whatever makes the
    solver search negative inflow angles. *)
Theorem C21_propeller_brake_refuted : forall npi (rt : rotor fl) (sc : sect fl) m r chord Rhub Rtip lo hi,
  1 / 10 < npi < PI -> (1 <= rt_B rt)%nat -> 0 < Rhub < r -> r < Rtip ->
  s_r sc = Fin r -> s_chord sc = Fin chord -> rt_Rhub rt = Fin Rhub -> rt_Rtip rt = Fin Rtip ->
  tipLoss (rt_opts rt) = true \/ hubLoss (rt_opts rt) = true ->
  documented_bracket npi (errf rt sc m) lo hi -> 0 < lo.
Proof. exact never_propeller_brake. Qed.
Print Assumptions C21_propeller_brake_refuted.

Definition default_opts : bemopts := mkOpts true true true true.

Example C21_example : let rt := mkRotor (Fin (1 / 2)) (Fin 3) 2 (Fin 1) (Fin 1) default_opts 1 (Fin 0) in
  exists lo hi, documented_bracket 3 (errf rt (w_sect (fun _ => 1)) 0) lo hi /\ 0 < lo.
Proof.
  intros rt. destruct (documented_bracket_exists 3 (errf rt (w_sect (fun _ => 1)) 0)) as (lo & hi & D & _).
  exists lo, hi. split; [exact D|]. pose proof PI2_1. pose proof PI_4.
  pose proof PI2_3_2.
  refine (never_propeller_brake 3 rt (w_sect (fun _ => 1)) 0 1 PI (1 / 2) 3 lo hi _ _ _ _ _ _ _ _ _ D);
    try reflexivity; try (cbn; lia); try lra.
Qed.

(** C21. Without the corrections they are searched, e.g. for a section with lift coefficient 1. *)
Theorem C21_reachable_without_losses : forall npi, 3 < npi < PI ->
  documented_bracket npi (errf w_rotor (w_sect (fun _ => 1)) 0) (- npi / 4) (- (1 / 1000000)).
Proof. exact brake_reachable. Qed.
Print Assumptions C21_reachable_without_losses.

(** C22. With wake rotation, if the root finder rejects the interval the station reports
    zero induction, loads and angle of attack. *)
Theorem C22_failed_solve : forall npi bq (rt : rotor fl) (sc : sect fl) m l lo hi,
  wakerotation (rt_opts rt) = true -> rt_iterRe rt = S m ->
  documented_bracket npi (errf rt sc m) lo hi ->
  bq (errf rt sc m) (Fin lo) (Fin hi) = Raise ValueError ->
  solve_station npi bq rt true sc = Ok l ->
  o_a l = Fin 0 /\ o_ap l = Fin 0 /\ o_Np l = Fin 0 /\ o_Tp l = Fin 0 /\ o_alpha l = Fin 0.
Proof. exact failed_solve. Qed.
Print Assumptions C22_failed_solve.

(** C22. And it does not raise an exception. *)
Theorem C22_failed_solve_returns : forall npi bq (rt : rotor fl) (sc : sect fl) m lo hi,
  rt_iterRe rt = S m ->
  documented_bracket npi (errf rt sc m) lo hi ->
  bq (errf rt sc m) (Fin lo) (Fin hi) = Raise ValueError ->
  exists l, solve_station npi bq rt true sc = Ok l.
Proof. exact failed_solve_returns. Qed.
Print Assumptions C22_failed_solve_returns.

Example C22_example : let rt := mkRotor (Fin (1 / 2)) (Fin 3) 2 (Fin 1) (Fin 1) default_opts 1 (Fin 0) in
  exists lo hi l, documented_bracket 3 (errf rt (w_sect (fun _ => 1)) 0) lo hi /\
    solve_station 3 (fun _ _ _ => Raise ValueError) rt true (w_sect (fun _ => 1)) = Ok l /\ o_Np l = Fin 0.
Proof.
  intros rt. destruct (documented_bracket_exists 3 (errf rt (w_sect (fun _ => 1)) 0)) as (lo & hi & D & _).
  destruct (failed_solve_returns 3 (fun _ _ _ => Raise ValueError) rt _ 0 lo hi eq_refl D eq_refl) as (l & E).
  exists lo, hi, l. split; [exact D|]. split; [exact E|].
  refine (proj1 (proj2 (proj2 (failed_solve 3 (fun _ _ _ => Raise ValueError) rt (w_sect (fun _ => 1)) 0 l lo hi eq_refl eq_refl D eq_refl E)))).
Qed.

(** C22. Without wake rotation it is false: a section whose solve is rejected reports a non-zero load. *)
Theorem C22_no_wake_rotation_refuted : forall npi bq, 3 < npi < PI -> rejects_same_sign bq ->
  let sc := w_sect cl_bump in
  wakerotation (rt_opts w_rotor) = false /\
  (exists lo hi, documented_bracket npi (errf w_rotor sc 0) lo hi /\
     bq (errf w_rotor sc 0) (Fin lo) (Fin hi) = Raise ValueError) /\
  exists l v, solve_station npi bq w_rotor true sc = Ok l /\ o_Np l = Fin v /\ v < 0.
Proof. exact failed_without_wake. Qed.
Print Assumptions C22_no_wake_rotation_refuted.

(** C23. Sign change, continuous airfoil, loading above -1 and outside the guard band: the residual
    has a zero in [1e-6, pi/2] (and is finite all over it). iterRe = 1. *)
Theorem C23_solution_exists : forall npi (rt : rotor fl) (sc : sect fl) r chord t Vx Vy Rhub Rtip rho mu p clf cdf,
  3 < npi < PI ->
  rep (s_r sc) r -> rep (s_chord sc) chord -> rep (s_theta sc) t -> rep (s_Vx sc) Vx -> rep (s_Vy sc) Vy ->
  rep (rt_Rhub rt) Rhub -> rep (rt_Rtip rt) Rtip -> rep (rt_rho rt) rho -> rep (rt_mu rt) mu -> rep (rt_pitch rt) p ->
  computes (s_af sc) clf cdf -> mu <> 0 -> Vx <> 0 -> Vy <> 0 ->
  (1 <= rt_B rt)%nat -> 0 < Rhub < r -> r < Rtip ->
  (forall Re al, continuous (fun al => clf al Re) al) -> (forall Re al, continuous (fun al => cdf al Re) al) ->
  let Re := rho * sqrt (Vx ^ 2 + Vy ^ 2) * chord / mu in
  (forall phi, 1 / 1000000 <= phi <= npi / 2 ->
     let k := loading (rt_opts rt) (rt_B rt) r chord Rhub Rtip phi (clf (phi - (t + p)) Re) (cdf (phi - (t + p)) Re) in
     - 1 < k /\ (2 / 3 < k -> 1 / 1000000 <= Rabs (band (lossF (rt_opts rt) (rt_B rt) r Rhub Rtip phi) k))) ->
  (pos (errf rt sc 0 (Fin (1 / 1000000))) /\ neg (errf rt sc 0 (Fin (npi / 2)))) \/
  (neg (errf rt sc 0 (Fin (1 / 1000000))) /\ pos (errf rt sc 0 (Fin (npi / 2)))) ->
  (exists phi, 1 / 1000000 <= phi <= npi / 2 /\ rep (errf rt sc 0 (Fin phi)) 0) /\
  (forall phi, 1 / 1000000 <= phi <= npi / 2 -> exists y, rep (errf rt sc 0 (Fin phi)) y).
Proof. exact zero_exists. Qed.
Print Assumptions C23_solution_exists.

(** C23. Then a root finder that accepts sign changes is successful and the fallback angle is not used. *)
Theorem C23_solve_succeeds : forall npi bq (rt : rotor fl) (sc : sect fl) r chord t Vx Vy Rhub Rtip rho mu p clf cdf,
  3 < npi < PI -> root_inside bq -> accepts_sign_change bq ->
  rep (s_r sc) r -> rep (s_chord sc) chord -> rep (s_theta sc) t -> rep (s_Vx sc) Vx -> rep (s_Vy sc) Vy ->
  rep (rt_Rhub rt) Rhub -> rep (rt_Rtip rt) Rtip -> rep (rt_rho rt) rho -> rep (rt_mu rt) mu -> rep (rt_pitch rt) p ->
  computes (s_af sc) clf cdf -> mu <> 0 -> Vx <> 0 -> Vy <> 0 ->
  (1 <= rt_B rt)%nat -> 0 < Rhub < r -> r < Rtip ->
  (forall Re al, continuous (fun al => clf al Re) al) -> (forall Re al, continuous (fun al => cdf al Re) al) ->
  let Re := rho * sqrt (Vx ^ 2 + Vy ^ 2) * chord / mu in
  (forall phi, 1 / 1000000 <= phi <= npi / 2 ->
     let k := loading (rt_opts rt) (rt_B rt) r chord Rhub Rtip phi (clf (phi - (t + p)) Re) (cdf (phi - (t + p)) Re) in
     - 1 < k /\ (2 / 3 < k -> 1 / 1000000 <= Rabs (band (lossF (rt_opts rt) (rt_B rt) r Rhub Rtip phi) k))) ->
  (pos (errf rt sc 0 (Fin (1 / 1000000))) /\ neg (errf rt sc 0 (Fin (npi / 2)))) \/
  (neg (errf rt sc 0 (Fin (1 / 1000000))) /\ pos (errf rt sc 0 (Fin (npi / 2)))) ->
  exists v, solve npi bq (errf rt sc 0) = Ok (Fin v) /\ 1 / 1000000 <= v <= npi / 2 /\
    bq (errf rt sc 0) (Fin (1 / 1000000)) (Fin (npi / 2)) = Ok (Fin v).
Proof. exact solve_succeeds. Qed.
Print Assumptions C23_solve_succeeds.

(** A section with lift sin(alpha) meets all hypotheses of C23. *)
Example C23_example : forall npi, 3 < npi < PI ->
  computes (s_af (w_sect sin)) (fun al _ => sin al) (fun _ _ => 0) /\
  (forall phi, 1 / 1000000 <= phi <= npi / 2 ->
     let k := loading off 2 1 PI (1 / 2) 3 phi (sin (phi - (0 + 0))) 0 in
     - 1 < k /\ (2 / 3 < k -> 1 / 1000000 <= Rabs (band (lossF off 2 1 (1 / 2) 3 phi) k))) /\
  neg (errf w_rotor (w_sect sin) 0 (Fin (1 / 1000000))) /\ pos (errf w_rotor (w_sect sin) 0 (Fin (npi / 2))).
Proof.
  intros npi Hn. split; [|split; [|split]].
  - intros al' Re' al Re Ha _. unfold w_sect. cbn [s_af]. unfold rep in Ha. rewrite Ha. split; reflexivity.
  - intros phi Hphi k. destruct (bracket_trig _ _ Hn Hphi) as [Hp Hc].
    assert (Hs : 0 < sin phi) by (apply sin_gt_0; lra).
    assert (Hk : 0 < k).
    { unfold k. rewrite w_loading. replace (phi - (0 + 0)) with phi by ring.
      apply Rdiv_lt_0_compat; [apply Rmult_lt_0_compat; lra|]. apply Rmult_lt_0_compat; [lra|apply pow_lt; lra]. }
    split; [lra|]. intros Hk2. rewrite w_lossF. unfold band. rewrite Rabs_right; lra.
  - destruct eps_trig as ((S0 & S1) & C0 & C1). change (1 / 1000000) with eps. pose proof PI2_1.
    assert (Hk : 2 / 3 < sin eps * cos eps / (4 * sin eps ^ 2)).
    { replace (sin eps * cos eps / (4 * sin eps ^ 2)) with (cos eps / (4 * sin eps)) by (field; lra).
      apply Rmult_lt_reg_r with (4 * sin eps); [lra|].
      replace (cos eps / (4 * sin eps) * (4 * sin eps)) with (cos eps) by (field; lra). lra. }
    eapply rep_neg_sign; [apply w_pos; [unfold eps; lra|lra|lra]|].
    set (s := sin eps) in *. set (c := cos eps) in *. set (k := s * c / (4 * s ^ 2)) in *.
    assert (Hks : 4 * s * k = c) by (unfold k; field; lra).
    assert (Hb : 1 / 1000000 <= Rabs (band 1 k)) by (unfold band; rewrite Rabs_right; lra).
    pose proof (axial_high k 1 Hk ltac:(lra) Hb) as Ha.
    pose proof (sqrt_g2_gt k 1 Hk ltac:(lra)) as Hq.
    assert (Hg : 0 <= g2 k 1) by (pose proof (g2_gt k 1 Hk ltac:(lra)); lra).
    pose proof (sqrt_g2_sqr k 1 Hg) as Hqq. set (q := sqrt (g2 k 1)) in *.
    assert (E : s / (1 - axial_pos k 1) = s * q + 2 / 3 * s) by (rewrite Ha; field; lra).
    rewrite E.
    assert (Hsq : (s * q) * (s * q) = s * c / 2 - s ^ 2 / 3).
    { replace (s * q * (s * q)) with (s ^ 2 * (q * q)) by ring. rewrite Hqq. unfold g2.
      rewrite <- Hks at 1. field. }
    assert (0 < s * q) by (apply Rmult_lt_0_compat; lra).
    assert (s * q < 1 / 100) by nra. lra.
  - destruct (half_trig npi Hn) as ((C0 & C1) & S0 & S1).
    assert (Hk : 0 < sin (npi / 2) * cos (npi / 2) / (4 * sin (npi / 2) ^ 2) < 2 / 3).
    { replace (sin (npi / 2) * cos (npi / 2) / (4 * sin (npi / 2) ^ 2)) with (cos (npi / 2) / (4 * sin (npi / 2))) by (field; lra).
      split; [apply Rdiv_lt_0_compat; lra|].
      apply Rmult_lt_reg_r with (4 * sin (npi / 2)); [lra|].
      replace (cos (npi / 2) / (4 * sin (npi / 2)) * (4 * sin (npi / 2))) with (cos (npi / 2)) by (field; lra). lra. }
    eapply rep_pos; [apply w_pos; lra|]. rewrite low_residual by lra. nra.
Qed.

(** C24. A zero wind component at a station makes everything reported there zero. *)
Theorem C24_zero_wind : forall npi bq rt rot (sc : sect fl) l,
  iszero (s_Vx sc) = true \/ iszero (s_Vy sc) = true ->
  solve_station npi bq rt rot sc = Ok l -> l = zero_load.
Proof. exact zero_wind_station. Qed.
Print Assumptions C24_zero_wind.

(** C24 in inverse mode. *)
Theorem C24_zero_wind_inverse : forall npi bq rt rot r chord cl cd alpha af Vx Vy t l,
  iszero Vx = true \/ iszero Vy = true ->
  solve_station_inverse npi bq rt rot r chord cl cd alpha af Vx Vy = Ok (t, l) -> l = zero_load.
Proof. exact zero_wind_station_inverse. Qed.
Print Assumptions C24_zero_wind_inverse.

(** A parked rotor in a head wind (Vy = 0): the loads are zero although the wind blows. *)
Example C24_example : exists l, solve_station 3 midpoint w_rotor false
  (mkSect (Fin 1) (Fin PI) (Fin 0) (fun _ _ => (Fin 1, Fin 1)) (Fin 10) (Fin 0)) = Ok l /\ l = zero_load.
Proof.
  unfold solve_station. cbn [bind].
  match goal with |- context [loads ?r ?p ?b ?s] => destruct (loads_ok r p b s 0 eq_refl) as (l0 & E0) end.
  rewrite E0. cbn [bind]. apply zero_wind_loads in E0; [subst l0|right; cbn; apply reqb_true; reflexivity].
  rewrite zero_load_guard. eauto.
Qed.

(** C25 (and the loads part of C19). Whenever the reported coefficients, speed and angle of attack
    are finite, the loads are lift and drag resolved through phi = alpha + theta + pitch; drag
    enters for every choice of the switches. *)
Theorem C25_loads : forall npi bq rt rot (sc : sect fl) l t p c rho cl cd W al,
  1 / 10 < npi -> root_inside bq ->
  rep (s_theta sc) t -> rep (rt_pitch rt) p -> rep (s_chord sc) c -> rep (rt_rho rt) rho ->
  solve_station npi bq rt rot sc = Ok l ->
  rep (o_cl l) cl -> rep (o_cd l) cd -> rep (o_W l) W -> rep (o_alpha l) al ->
  let phi := radians al + t + p in
   rep (o_cn l) (fst (resolve cl cd phi)) /\ rep (o_ct l) (snd (resolve cl cd phi)) /\
   rep (o_q l) (dynamic_pressure rho W) /\
   rep (o_Np l) (dynamic_pressure rho W * c * fst (resolve cl cd phi)) /\
   rep (o_Tp l) (dynamic_pressure rho W * c * snd (resolve cl cd phi)).
Proof. exact station_resolve. Qed.
Print Assumptions C25_loads.

(** C25 in inverse mode, with the computed twist. *)
Theorem C25_loads_inverse : forall npi bq rt rot r chord cl0 cd0 alpha af Vx Vy theta l t p c rho cl cd W al,
  1 / 10 < npi -> root_inside bq ->
  rep theta t -> rep (rt_pitch rt) p -> rep chord c -> rep (rt_rho rt) rho ->
  solve_station_inverse npi bq rt rot r chord cl0 cd0 alpha af Vx Vy = Ok (theta, l) ->
  rep (o_cl l) cl -> rep (o_cd l) cd -> rep (o_W l) W -> rep (o_alpha l) al ->
  let phi := radians al + t + p in
   rep (o_cn l) (fst (resolve cl cd phi)) /\ rep (o_ct l) (snd (resolve cl cd phi)) /\
   rep (o_q l) (dynamic_pressure rho W) /\
   rep (o_Np l) (dynamic_pressure rho W * c * fst (resolve cl cd phi)) /\
   rep (o_Tp l) (dynamic_pressure rho W * c * snd (resolve cl cd phi)).
Proof. exact station_resolve_inverse. Qed.
Print Assumptions C25_loads_inverse.

(** C25. Consequences of the resolution: magnitude, and recovery of lift and drag. *)
Theorem C25_recover : forall npi bq rt rot (sc : sect fl) l t p c rho cl cd W al Np Tp,
  1 / 10 < npi -> root_inside bq ->
  rep (s_theta sc) t -> rep (rt_pitch rt) p -> rep (s_chord sc) c -> rep (rt_rho rt) rho ->
  solve_station npi bq rt rot sc = Ok l ->
  rep (o_cl l) cl -> rep (o_cd l) cd -> rep (o_W l) W -> rep (o_alpha l) al ->
  rep (o_Np l) Np -> rep (o_Tp l) Tp ->
  let phi := radians al + t + p in
  let q := rho * W ^ 2 / 2 in
  Np ^ 2 + Tp ^ 2 = (q * c) ^ 2 * (cl ^ 2 + cd ^ 2) /\
  Np * sin phi - Tp * cos phi = q * c * cd /\
  Np * cos phi + Tp * sin phi = q * c * cl.
Proof. exact station_recover. Qed.
Print Assumptions C25_recover.

(** Hypotheses of C25: a parked section with 90 degrees inflow, wind speeds (3, 4), so W = 5. *)
Example C25_example : exists l, solve_station 3 midpoint w_rotor false
    (mkSect (Fin 1) (Fin 2) (Fin (1 / 10)) (fun _ _ => (Fin 1, Fin (1 / 2))) (Fin 3) (Fin 4)) = Ok l /\
  rep (o_cl l) 1 /\ rep (o_cd l) (1 / 2) /\ rep (o_W l) 5 /\ exists al, rep (o_alpha l) al.
Proof. apply parked_example. Qed.
