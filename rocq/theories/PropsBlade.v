(** Property theorems for whole-rotor calls and the constructor (C08 loads part, C22 second part,
    C26-C32, C42, C61), ccblade.py:554-614, 878-1153, 1155-1400 without derivatives. *)
From Coq Require Import Reals Bool Arith List Lra Lia.
From Verif Require Import Prelim Num Bem Interp InterpSpec InterpProofs Blade BladeSpec FlProofs StationProofs StationLoads.
From Verif Require Import BladeProofs SectorProofs ConstructProofs SectorWitness InverseProofs PropsStation.
Import ListNotations.
Open Scope R_scope.

(** C08. *)
Theorem C08_loads : forall npi bq b U Om p az az', b_tilt b = 0 -> b_yaw b = 0 -> b_shearExp b = 0 ->
  distributedAeroLoads npi bq b U Om p az = distributedAeroLoads npi bq b U Om p az'.
Proof. intros. apply loads_axisymmetric. repeat split; assumption. Qed.
Print Assumptions C08_loads.

(** A rotor whose loads are not trivial: both stations carry a positive normal load. *)
Example C08_loads_example : forall npi p az, 3 < npi < PI -> exists b b' l0 l1 N0 N1, construct d_args = Ok b /\
  b_tilt b = 0 /\ b_yaw b = 0 /\ b_shearExp b = 0 /\
  distributedAeroLoads npi midpoint b 1 (30 / PI) p az = Ok (b', [l0; l1]) /\
  rep (o_Np l0) N0 /\ rep (o_Np l1) N1 /\ 0 < N0 /\ 0 < N1.
Proof.
  intros npi p az Hn. destruct midpoint_contracts as (M1 & _ & M2).
  destruct (d_loads npi midpoint p az Hn M1 M2) as (l0 & l1 & N0 & N1 & T0 & T1 & E & A & B & _ & _ & C & D & _).
  exists d_blade, (repitch d_blade (radians p)), l0, l1, N0, N1. split; [exact d_construct|]. do 3 (split; [reflexivity|]). auto.
Qed.

(** C22, independence: what a forward-mode call returns for a station does not depend on the chord,
    twist or airfoil of any other station. *)
Theorem C22_station_independent : forall npi bq b chord theta af U Om p az b1 ls1 b2 ls2 i,
  b_inverse b = false ->
  nth_error chord i = nth_error (b_chord b) i -> nth_error theta i = nth_error (b_theta b) i ->
  nth_error af i = nth_error (b_af b) i ->
  distributedAeroLoads npi bq b U Om p az = Ok (b1, ls1) ->
  distributedAeroLoads npi bq (with_sections b chord theta af) U Om p az = Ok (b2, ls2) ->
  nth_error ls1 i = nth_error ls2 i.
Proof. exact station_independent. Qed.
Print Assumptions C22_station_independent.

(** Hypotheses: both calls can succeed, here with the second twist and airfoil changed (the root
    finder that always gives up is allowed). *)
Example C22_independent_example : let give_up : rootfinder fl := fun _ _ _ => Raise ValueError in
  let af2 : airfoil fl := fun _ _ => (Fin 1, Fin 1) in
  exists b1 l0 l1 b2 l2 l3,
    distributedAeroLoads 3 give_up d_blade 1 (30 / PI) 0 0 = Ok (b1, [l0; l1]) /\
    distributedAeroLoads 3 give_up (with_sections d_blade [1; 1] [Fin 0; Fin 1] [drag_af; af2]) 1 (30 / PI) 0 0 = Ok (b2, [l2; l3]).
Proof.
  intros give_up af2. pose proof PI_RGT_0 as HP.
  assert (HO : reqb (30 / PI) 0 = false).
  { apply reqb_false. assert (0 < 30 / PI) by (apply Rdiv_lt_0_compat; lra). lra. }
  assert (S : forall rt sc, rt_iterRe rt = 1%nat -> exists l, solve_station 3 give_up rt true sc = Ok l).
  { intros rt sc Hi. destruct (documented_bracket_exists 3 (errf rt sc 0)) as (lo & hi & D & _).
    exact (failed_solve_returns 3 give_up rt sc 0 lo hi Hi D eq_refl). }
  assert (G : forall th2 af2, exists l0 l1 b', distributedAeroLoads 3 give_up
     (with_sections d_blade [1; 1] [Fin 0; th2] [drag_af; af2]) 1 (30 / PI) 0 0 = Ok (b', [l0; l1])).
  { intros th2 af3. unfold distributedAeroLoads. change (shapes_ok _) with true. cbn [negb]. cbv zeta.
    change (seq 0 (length (b_r (with_sections d_blade [1; 1] [Fin 0; th2] [drag_af; af3])))) with [0%nat; 1%nat].
    cbn [mapM]. unfold station_i. rewrite HO. cbv zeta. cbn [with_sections d_blade b_r b_chord b_theta b_af b_inverse pyget nth_error bind negb].
    match goal with |- context [solve_station 3 give_up ?rt true ?sc] => destruct (S rt sc eq_refl) as (l0 & ->) end. cbn [bind].
    match goal with |- context [solve_station 3 give_up ?rt true ?sc] => destruct (S rt sc eq_refl) as (l1 & ->) end. cbn [bind map snd].
    eauto. }
  destruct (G (Fin 0) drag_af) as (l0 & l1 & b1 & E1). destruct (G (Fin 1) af2) as (l2 & l3 & b2 & E2).
  exists b1, l0, l1, b2, l2, l3. split; [exact E1|exact E2].
Qed.

(** C26, conditions: evaluating a list is evaluating each condition alone. If it raises, one of
    the conditions alone raises the same exception. *)
Theorem C26_pointwise : forall npi bq b conds, b_inverse b = false -> (1 <= b_nSector b)%nat -> conds <> [] ->
  match evaluate npi bq b conds with
  | Ok (_, outs, _) => Forall2 (fun c o => exists b' w, evaluate npi bq b [c] = Ok (b', [o], w)) conds outs
  | Raise e => exists c, In c conds /\ evaluate npi bq b [c] = Raise e
  end.
Proof. exact evaluate_pointwise. Qed.
Print Assumptions C26_pointwise.

(** C26, history: whatever calls were made on an object (including ones that raised), the next call
    returns what it returns on the fresh object. *)
Theorem C26_history_free : forall npi bq b0 b, b_inverse b0 = false -> reachable npi bq b0 b ->
  (forall conds, returned (evaluate npi bq b conds) = returned (evaluate npi bq b0 conds)) /\
  (forall U Om p az, distributedAeroLoads npi bq b U Om p az = distributedAeroLoads npi bq b0 U Om p az).
Proof. exact history_free. Qed.
Print Assumptions C26_history_free.

(** A fresh object is in forward mode, has a sector, and successful calls exist that change it. *)
Example C26_example : forall npi, 3 < npi < PI -> exists b b' y w, construct d_args = Ok b /\
  b_inverse b = false /\ (1 <= b_nSector b)%nat /\
  evaluate npi midpoint b [(1, 30 / PI, 1)] = Ok (b', [Some y], w) /\ reachable npi midpoint b b' /\ b_pitch b' <> b_pitch b.
Proof.
  intros npi Hn. destruct midpoint_contracts as (M1 & _ & M2).
  destruct (d_evaluate npi midpoint 1 1 Hn M1 M2 ltac:(lia)) as (b' & y & w & E & _).
  change (with_sectors d_blade 1) with d_blade in E.
  exists d_blade, b', y, w. split; [exact d_construct|]. split; [reflexivity|]. split; [cbn; lia|]. split; [exact E|].
  split; [exact (after_evaluate _ _ _ _ _ _ _ _ (new _ _ _) E)|].
  pose proof (evaluate_pitch npi midpoint d_blade 1 (30 / PI) 1 b' _ w eq_refl (le_n 1) E) as ->. cbn [d_blade b_pitch].
  intros H. apply (proj1 (radians_zero 1)) in H. lra.
Qed.

(** C27. q and A are the dynamic pressure and rotor disc area. *)
Theorem C27_outputs : forall npi bq b conds b' outs w i y U Om p,
  evaluate npi bq b conds = Ok (b', outs, w) -> nth_error outs i = Some (Some y) -> nth_error conds i = Some (U, Om, p) ->
  b_rho b <> 0 -> U <> 0 -> b_rotorR b <> 0 ->
  let q := b_rho b * U ^ 2 / 2 in
  let A := PI * b_rotorR b ^ 2 in
  let t := y_tot y in
  y_P y = t_Q t * Om * PI / 30 /\
  y_CP y * (q * A * U) = y_P y /\ y_CT y * (q * A) = t_T t /\ y_CY y * (q * A) = t_Y t /\ y_CZ y * (q * A) = t_Z t /\
  y_CQ y * (q * A * b_rotorR b) = t_Q t /\ y_CMy y * (q * A * b_rotorR b) = t_My t /\
  y_CMz y * (q * A * b_rotorR b) = t_Mz t /\ y_CMb y * (q * A * b_rotorR b) = t_Mb t /\
  y_CP y = y_CQ y * (Om * PI / 30 * b_rotorR b / U).
Proof. exact outputs_consistent. Qed.
Print Assumptions C27_outputs.

(** C27. The radius. *)
Theorem C27_radius : forall g b, construct g = Ok b ->
  let tip := match g_precurve g with Some _ => g_precurveTip g | None => 0 end in
  b_rotorR b = g_Rtip g * cos (radians (g_precone g)) + tip * sin (radians (g_precone g)) /\ b_rho b = g_rho g.
Proof. exact constructed_radius. Qed.
Print Assumptions C27_radius.

Example C27_example : forall npi, 3 < npi < PI -> exists b b' y w, construct d_args = Ok b /\
  evaluate npi midpoint b [(1, 30 / PI, 0)] = Ok (b', [Some y], w) /\ b_rho b <> 0 /\ b_rotorR b <> 0 /\ 0 < t_T (y_tot y).
Proof.
  intros npi Hn. destruct midpoint_contracts as (M1 & _ & M2).
  destruct (d_evaluate npi midpoint 1 0 Hn M1 M2 ltac:(lia)) as (b' & y & w & E & H & _).
  exists d_blade, b', y, w. split; [exact d_construct|]. split; [exact E|]. cbn [d_blade b_rho b_rotorR]. repeat split; lra.
Qed.

(** C28. *)
Theorem C28_sector_count : forall npi bq b n m conds,
  b_tilt b = 0 -> b_yaw b = 0 -> b_shearExp b = 0 -> b_inverse b = false -> (1 <= n)%nat -> (1 <= m)%nat -> conds <> [] ->
  match returned (evaluate npi bq (with_sectors b n) conds), returned (evaluate npi bq (with_sectors b m) conds) with
  | Ok (o1, w1), Ok (o2, w2) =>
      Forall2 (fun x y => agree (fun z => t_T (y_tot z)) x y /\ agree (fun z => t_Q (y_tot z)) x y /\
                          agree y_P x y /\ agree (fun z => t_Mb (y_tot z)) x y) o1 o2 /\ w1 = w2
  | Raise e1, Raise e2 => e1 = e2
  | _, _ => False
  end.
Proof. intros. apply sector_count; try assumption. repeat split; assumption. Qed.
Print Assumptions C28_sector_count.

Example C28_example : forall npi n, 3 < npi < PI -> (1 <= n)%nat -> exists b b' y w, construct d_args = Ok b /\
  b_tilt b = 0 /\ b_yaw b = 0 /\ b_shearExp b = 0 /\ b_inverse b = false /\
  evaluate npi midpoint (with_sectors b n) [(1, 30 / PI, 0)] = Ok (b', [Some y], w) /\ 0 < t_T (y_tot y).
Proof.
  intros npi n Hn Hs. destruct midpoint_contracts as (M1 & _ & M2).
  destruct (d_evaluate npi midpoint n 0 Hn M1 M2 Hs) as (b' & y & w & E & H & _).
  exists d_blade, b', y, w. split; [exact d_construct|]. do 4 (split; [reflexivity|]). auto.
Qed.

(** C29. False as stated: with one sector My is not zero, with four it is. *)
Theorem C29_side_moment_refuted : forall npi bq, 3 < npi < PI -> root_inside bq -> accepts_sign_change bq ->
  exists b, construct d_args = Ok b /\ b_tilt b = 0 /\ b_yaw b = 0 /\ b_shearExp b = 0 /\ (2 <= b_B b)%nat /\
  exists b1 y1 w1 b4 y4 w4,
    evaluate npi bq (with_sectors b 1) [(1, 30 / PI, 0)] = Ok (b1, [Some y1], w1) /\
    evaluate npi bq (with_sectors b 4) [(1, 30 / PI, 0)] = Ok (b4, [Some y4], w4) /\
    0 < t_My (y_tot y1) /\ t_My (y_tot y4) = 0.
Proof.
  intros npi bq H1 H2 H3. destruct (side_moment_depends npi bq H1 H2 H3) as (b & E & (T1 & T2 & T3) & R). exists b. auto.
Qed.
Print Assumptions C29_side_moment_refuted.

(** C29. With two sectors or more the side force, vertical force, My and Mz vanish for every axisymmetric rotor. *)
Theorem C29_balanced : forall npi bq b n conds b' outs w i y,
  b_tilt b = 0 -> b_yaw b = 0 -> b_shearExp b = 0 -> b_inverse b = false -> (2 <= n)%nat ->
  evaluate npi bq (with_sectors b n) conds = Ok (b', outs, w) -> nth_error outs i = Some (Some y) ->
  t_Y (y_tot y) = 0 /\ t_Z (y_tot y) = 0 /\ t_My (y_tot y) = 0 /\ t_Mz (y_tot y) = 0.
Proof. intros npi bq b n conds b' outs w i y H1 H2 H3. apply side_loads_vanish. repeat split; assumption. Qed.
Print Assumptions C29_balanced.

(** C29. With the single sector the constructor chooses, My is instead the flap moment of one blade times B. *)
Theorem C29_one_sector : forall npi bq b conds b' outs w i y,
  b_tilt b = 0 -> b_yaw b = 0 -> b_shearExp b = 0 -> b_inverse b = false ->
  evaluate npi bq (with_sectors b 1) conds = Ok (b', outs, w) -> nth_error outs i = Some (Some y) ->
  t_My (y_tot y) = INR (b_B b) * t_Mb (y_tot y) /\ t_Mz (y_tot y) = 0.
Proof. intros npi bq b conds b' outs w i y H1 H2 H3. apply side_moment_one. repeat split; assumption. Qed.
Print Assumptions C29_one_sector.

(** C30. *)
Theorem C30_sector_rule : forall g b, construct g = Ok b ->
  (g_tilt g = 0 /\ g_yaw g = 0 /\ g_shearExp g = 0 -> b_nSector b = 1%nat) /\
  (~ (g_tilt g = 0 /\ g_yaw g = 0 /\ g_shearExp g = 0) -> b_nSector b = Nat.max 4 (g_nSector g)).
Proof. exact sector_rule. Qed.
Print Assumptions C30_sector_rule.

Example C30_example : construct d_args = Ok d_blade /\ b_nSector d_blade = 1%nat /\ g_nSector d_args = 8%nat.
Proof. split; [exact d_construct|split; reflexivity]. Qed.

(** C31. *)
Theorem C31_stations : forall g b, construct g = Ok b -> increasing (g_r g) ->
  g_Rhub g <= nth 0 (g_r g) 0 -> nth (length (g_r g) - 1) (g_r g) 0 <= g_Rtip g ->
  let n := length (g_r g) in
  b_Rhub b = g_Rhub g /\ b_Rtip b = g_Rtip g /\
  length (b_r b) = n /\ increasing (b_r b) /\ g_Rhub g < nth 0 (b_r b) 0 /\ nth (n - 1) (b_r b) 0 < g_Rtip g /\
  (forall i, (0 < i < n - 1)%nat -> nth i (b_r b) 0 = nth i (g_r g) 0) /\
  (g_Rhub g <> nth 0 (g_r g) 0 -> nth 0 (b_r b) 0 = nth 0 (g_r g) 0) /\
  (g_Rtip g <> nth (n - 1) (g_r g) 0 -> nth (n - 1) (b_r b) 0 = nth (n - 1) (g_r g) 0).
Proof. exact stations_inside. Qed.
Print Assumptions C31_stations.

(** Construction succeeds for every list of at least two stations without precurve and presweep. *)
Theorem C31_constructs : forall g, (2 <= length (g_r g))%nat -> g_precurve g = None -> g_presweep g = None ->
  exists b, construct g = Ok b.
Proof. exact construct_succeeds. Qed.
Print Assumptions C31_constructs.

(** Stations coinciding with hub and tip. *)
Example C31_example : let g := mkArgs [1; 2] [1; 1] [0; 0] [drag_af; drag_af] 1 2 2 1 1 0 0 0 0 80 8 None 0 None 0 default_opts 1 in
  (exists b, construct g = Ok b) /\ increasing (g_r g) /\ g_Rhub g <= nth 0 (g_r g) 0 /\
  nth (length (g_r g) - 1) (g_r g) 0 <= g_Rtip g.
Proof.
  intros g. split; [apply construct_succeeds; [cbn; lia|reflexivity|reflexivity]|]. split; [exact d_increasing|]. cbn. lra.
Qed.

(** C32. False as stated: a blade whose last station is not at the tip, with precurve 0, 0, 1 and
    tip precurve 1, gets another precurve at the last station. *)
Theorem C32_precurve_refuted : forall af, exists b, construct (curved_args af) = Ok b /\
  g_precurve (curved_args af) = Some [0; 0; 1] /\
  last (g_r (curved_args af)) 0 <> g_Rtip (curved_args af) /\
  exists x, b_precurve b = [0; 0; x] /\ x <> 1.
Proof. intros af. destruct (tip_precurve_moved af) as (b & E & H & R). exists b. auto. Qed.
Print Assumptions C32_precurve_refuted.

(** C32. Only the last value can change, and it does not when it differs from the tip value. *)
Theorem C32_precurve_kept : forall g b l, construct g = Ok b -> g_precurve g = Some l ->
  removelast (b_precurve b) = removelast l /\ (g_precurveTip g <> last l 0 -> b_precurve b = l).
Proof. exact precurve_kept. Qed.
Print Assumptions C32_precurve_kept.

Theorem C32_presweep_kept : forall g b l, construct g = Ok b -> g_presweep g = Some l ->
  removelast (b_presweep b) = removelast l /\ (g_presweepTip g <> last l 0 -> b_presweep b = l).
Proof. exact presweep_kept. Qed.
Print Assumptions C32_presweep_kept.

(** C32. Blades given without precurve or presweep have none. *)
Theorem C32_none : forall g b, construct g = Ok b -> increasing (g_r g) ->
  (g_precurve g = None -> b_precurve b = map (fun _ => 0) (g_r g) /\ b_precurveTip b = 0) /\
  (g_presweep g = None -> b_presweep b = map (fun _ => 0) (g_r g) /\ b_presweepTip b = 0).
Proof. exact no_curve_zero. Qed.
Print Assumptions C32_none.

Example C32_example : let g := mkArgs [1; 2] [1; 1] [0; 0] [] 1 2 2 1 1 0 0 0 0 80 8 (Some [0; 1]) 2 (Some [0; 0]) 1 default_opts 1 in
  exists b, construct g = Ok b /\ b_precurve b = [0; 1] /\ b_presweep b = [0; 0].
Proof.
  intros g. assert (exists b, construct g = Ok b) as (b & E) by (unfold construct; cbn; eauto).
  exists b. split; [exact E|]. split.
  - apply (precurve_kept g b [0; 1] E eq_refl). cbn. lra.
  - apply (presweep_kept g b [0; 0] E eq_refl). cbn. lra.
Qed.

(** C42. In inverse mode the reported angle of attack is the requested one (or the station reports
    zero loads, as in C22 and C24). *)
Theorem C42_angle : forall npi bq b U Om p az b' ls,
  1 / 10 < npi -> root_inside bq -> b_inverse b = true ->
  distributedAeroLoads npi bq b U Om p az = Ok (b', ls) ->
  length ls = length (b_r b) /\ length (b_theta b') = length (b_r b) /\
  forall i l, nth_error ls i = Some l -> exists al, nth_error (b_alpha b) i = Some al /\
    (rep (o_alpha l) (degrees al) \/ (o_Np l = Fin 0 /\ o_Tp l = Fin 0 /\ o_alpha l = Fin 0)).
Proof. exact inverse_call. Qed.
Print Assumptions C42_angle.

(** C42. With the twist theta = phi - alpha - pitch the residual of forward mode at phi is that of
    inverse mode, if the airfoil has the requested coefficients at the requested angle. *)
Theorem C42_residual : forall rt (r chord cl cd Vx Vy : fl) (af : airfoil fl) (al p phi : R) m,
  rt_pitch rt = Fin p -> (forall al' Re', rep al' al -> af al' Re' = (cl, cd)) ->
  forall theta, rep theta (phi - al - p) ->
  errf rt (mkSect r chord theta af Vx Vy) m (Fin phi) = errf_inverse rt r chord cl cd Vx Vy (Fin phi).
Proof. exact inverse_residual. Qed.
Print Assumptions C42_residual.

(** An inverse-mode call that returns, asking for 1/10 rad at both stations. *)
Definition inverse_blade : blade :=
  mkBlade [1; 2] [1; 1] [Fin 0; Fin 0] [drag_af; drag_af] (1 / 2) 3 2 1 1 0 0 0 0 80 default_opts 1
    [0; 0] 0 [0; 0] 0 3 1 true [1; 1] [0; 0] [1 / 10; 1 / 10] 0.

Example C42_example : b_inverse inverse_blade = true /\ exists b' l0 l1,
  distributedAeroLoads 3 midpoint inverse_blade 1 (30 / PI) 0 0 = Ok (b', [l0; l1]).
Proof.
  split; [reflexivity|]. pose proof PI_RGT_0 as HP.
  assert (HO : reqb (30 / PI) 0 = false).
  { apply reqb_false. assert (0 < 30 / PI) by (apply Rdiv_lt_0_compat; lra). lra. }
  assert (S : forall rt r c cl cd al af Vx Vy, rt_iterRe rt = 1%nat ->
     exists t l, solve_station_inverse 3 midpoint rt true r c cl cd al af Vx Vy = Ok (t, l)).
  { intros rt r c cl cd al af Vx Vy Hi. unfold solve_station_inverse. rewrite Hi.
    assert (exists phi, solve 3 midpoint (errf_inverse rt r c cl cd Vx Vy) = Ok phi) as (phi & ->).
    { unfold solve. destruct (bracket _ _) as [lo hi]. unfold midpoint.
      destruct (flt _ _); [eauto|]. destruct (fval lo); [destruct (fval hi)|]; eauto. }
    cbn [bind].
    match goal with |- context [loads rt phi true ?s] => destruct (loads_ok rt phi true s 0 Hi) as (l0 & ->) end.
    cbn [bind]. destruct (nan_guard_ok l0) as (l & ->). cbn [bind]. eauto. }
  unfold distributedAeroLoads. change (shapes_ok _) with true. cbn [negb]. cbv zeta.
  change (seq 0 (length (b_r inverse_blade))) with [0%nat; 1%nat].
  cbn [mapM]. unfold station_i. rewrite HO. cbv zeta.
  cbn [inverse_blade b_r b_chord b_theta b_af b_cl b_cd b_alpha b_inverse pyget nth_error bind negb].
  match goal with |- context [solve_station_inverse 3 midpoint ?rt true ?r ?c ?cl ?cd ?al ?af ?Vx ?Vy] =>
    destruct (S rt r c cl cd al af Vx Vy eq_refl) as (t0 & l0 & ->) end. cbn [bind].
  match goal with |- context [solve_station_inverse 3 midpoint ?rt true ?r ?c ?cl ?cd ?al ?af ?Vx ?Vy] =>
    destruct (S rt r c cl cd al af Vx Vy eq_refl) as (t1 & l1 & ->) end. cbn [bind map snd]. eauto.
Qed.

(** C61. numpy.interp computes the polygon through the table points, continued constantly, and
    that determines it. *)
Theorem C61_polygon : forall x xp fp, increasing xp -> length xp = length fp -> xp <> [] ->
  polygon_value xp fp x (interp x xp fp) /\ forall y, polygon_value xp fp x y -> y = interp x xp fp.
Proof.
  intros x xp fp H1 H2 H3. pose proof (interp_polygon x xp fp H1 H2 H3) as P. split; [exact P|].
  intros y Hy. exact (polygon_unique xp fp x y _ H1 H3 Hy P).
Qed.
Print Assumptions C61_polygon.

Theorem C61_table_points : forall xp fp i, increasing xp -> length xp = length fp -> (i < length xp)%nat ->
  interp (nth i xp 0) xp fp = nth i fp 0.
Proof. exact interp_node. Qed.
Print Assumptions C61_table_points.

Theorem C61_clamped : forall x xp fp, increasing xp -> length xp = length fp -> xp <> [] ->
  (x <= nth 0 xp 0 -> interp x xp fp = nth 0 fp 0) /\
  (nth (length xp - 1) xp 0 <= x -> interp x xp fp = nth (length xp - 1) fp 0).
Proof. exact interp_clamped. Qed.
Print Assumptions C61_clamped.

Theorem C61_bounds : forall x xp fp lo hi, increasing xp -> length xp = length fp -> xp <> [] ->
  (forall i, (i < length fp)%nat -> lo <= nth i fp 0 <= hi) -> lo <= interp x xp fp <= hi.
Proof. exact interp_bounds. Qed.
Print Assumptions C61_bounds.

Theorem C61_monotone : forall x y xp fp, increasing xp -> length xp = length fp -> xp <> [] -> nondecreasing fp ->
  x <= y -> interp x xp fp <= interp y xp fp.
Proof. exact interp_monotone. Qed.
Print Assumptions C61_monotone.

Example C61_example : increasing [1; 2] /\ nondecreasing [3; 5] /\ interp (3 / 2) [1; 2] [3; 5] = 4.
Proof.
  split; [exact d_increasing|]. split.
  - intros [|[|i]] [|[|j]] Hij; simpl in *; lra || lia.
  - unfold interp, interp_from, seg. repeat rb_if; lra.
Qed.
