(** The OpenMDAO components of ccblade_component.py (C56-C60, C72-C77). *)
From Coquelicot Require Import Coquelicot.
From Coq Require Import Reals Bool Arith List Lra Lia.
From Verif Require Import Prelim Num Bem BemGeomSpec InterpSpec IndSpec DiffSpec BemDiff DeriveLib Blade BladeSpec FlProofs StationProofs StationLoads BladeDiff BladeDiffSpec
  BladeDvExample SectorWitness Component ComponentSpec ComponentProofs ComponentRho ExactRotor ComponentWitness TwistProofs TwistWitness PropsStation.
Import ListNotations.
Open Scope R_scope.

(** ** C56: CCBladeGeometry *)
Theorem C56_geometry_values : forall i, gi_precurve i <> [] -> gi_presweep i <> [] ->
  let pc := nth (length (gi_precurve i) - 1) (gi_precurve i) 0 in
  let R := gi_Rtip i * cos (radians (gi_precone i)) + pc * sin (radians (gi_precone i)) in
  geometry_compute i = Ok (mkGeomOut R (2 * R) pc (nth (length (gi_presweep i) - 1) (gi_presweep i) 0)).
Proof. exact geometry_values. Qed.
Print Assumptions C56_geometry_values.

(** The reported partials are the derivatives along every differentiable motion of the inputs. *)
Theorem C56_geometry_partials : forall I t vR vc vpc vps J, geom_curve I t vR vc vpc vps -> geometry_partials (I t) = Ok J ->
  let n := length (gi_precurve (I t)) in
  let rate w := geom_rate n w vR vc vpc vps in
  is_derive (fun s => out go_R (geometry_compute (I s))) t (rate (gj_R J)) /\
  is_derive (fun s => out go_diameter (geometry_compute (I s))) t (rate (gj_diameter J)) /\
  is_derive (fun s => out go_precurveTip (geometry_compute (I s))) t (rate (gj_precurveTip J)) /\
  is_derive (fun s => out go_presweepTip (geometry_compute (I s))) t (rate (gj_presweepTip J)).
Proof. exact geometry_rates. Qed.
Print Assumptions C56_geometry_partials.

(** The radius is the one CCBlade divides its coefficients by. *)
Theorem C56_same_radius : forall i o g b l, geometry_compute i = Ok o -> construct g = Ok b ->
  g_Rtip g = gi_Rtip i -> g_precone g = gi_precone i -> g_precurve g = Some l -> g_precurveTip g = go_precurveTip o ->
  b_rotorR b = go_R o.
Proof. exact geometry_radius. Qed.
Print Assumptions C56_same_radius.

Example C56_example : (* a bent blade on a coning rotor, all inputs moving *)
  let I s := mkGeomIn (50 + s) [0; s; 2 + s] [0; 1; 3 - s] (5 * s) in
  geom_curve I 1 1 5 (fun j => nth j [0; 1; 1] 0) (fun j => nth j [0; 0; -1] 0) /\ (exists J, geometry_partials (I 1) = Ok J) /\
  exists o, geometry_compute (I 1) = Ok o /\ go_precurveTip o = 3 /\ go_presweepTip o = 2.
Proof.
  intros I. split; [|split].
  - unfold geom_curve, I. cbn [gi_precurve gi_presweep gi_Rtip gi_precone length]. split; [auto|].
    split; [der; ring|]. split; [der; ring|].
    split; intros [|[|[|j]]] Hj; try lia; cbn [nth]; der; ring.
  - eexists. reflexivity.
  - eexists. split; [reflexivity|]. cbn. split; lra.
Qed.

(** ** C57: CCBladeTwist, lift and drag *)
(** For every station whose twist and loads are finite numbers: LiftF = q c cl, DragF = q c cd, and the loads in the airfoil
    frame have the magnitude of those in the blade frame. *)
Theorem C57_lift_and_drag : forall npi bq alpha1 smooth o i prev y, 1 / 10 < npi -> root_inside bq ->
  twist_compute npi bq alpha1 smooth o i prev = Ok y ->
  exists b b' ls, twist_design npi bq alpha1 smooth o i = Ok b /\
    distributedAeroLoads npi bq b (wi_Uhub i) (twist_Omega i) (wi_pitch i) 0 = Ok (b', ls) /\ b_theta b = wt_theta y /\ length ls = length (g_r (wi_args i)) /\
    forall k l t, nth_error ls k = Some l -> rep (nth k (wt_theta y) NaN) t ->
      nth k (wt_cl y) NaN = o_cl l /\ nth k (wt_cd y) NaN = o_cd l /\ nth k (wt_alpha y) NaN = o_alpha l /\
      nth k (wt_Px_b y) NaN = o_Np l /\ nth k (wt_Py_b y) NaN = fneg (o_Tp l) /\
      (forall cl cd W al, rep (o_cl l) cl -> rep (o_cd l) cd -> rep (o_W l) W -> rep (o_alpha l) al ->
        let q := g_rho (wi_args i) * W ^ 2 / 2 in let c := nth k (g_chord (wi_args i)) 0 in
        rep (nth k (wt_LiftF y) NaN) (q * c * cl) /\ rep (nth k (wt_DragF y) NaN) (q * c * cd)) /\
      (forall N T, rep (o_Np l) N -> rep (o_Tp l) T -> exists X Y,
        rep (nth k (wt_Px_af y) NaN) X /\ rep (nth k (wt_Py_af y) NaN) Y /\ X ^ 2 + Y ^ 2 = N ^ 2 + T ^ 2).
Proof. exact lift_drag. Qed.
Print Assumptions C57_lift_and_drag.

(** A root finder meeting the contracts that raises nothing but ValueError. *)
Lemma midpoint_tame : only_value_error midpoint.
Proof.
  intros f a b e. unfold midpoint. destruct (flt _ _); [intros E; injection E; auto|].
  destruct (fval a); [destruct (fval b)|]; intros E; try discriminate; injection E; auto.
Qed.

Example C57_example : forall npi alpha1 smooth, 3 < npi < PI -> exists y b b' l0 l1 N W, let i := w_in drag_af [0; 0] [0; 0] [0; 0] in
  twist_compute npi midpoint alpha1 smooth forward i (0, 0, 0, 0) = Ok y /\ root_inside midpoint /\
  twist_design npi midpoint alpha1 smooth forward i = Ok b /\
  distributedAeroLoads npi midpoint b 1 (30 / PI) 0 0 = Ok (b', [l0; l1]) /\
  rep (nth 0 (wt_theta y) NaN) 0 /\ rep (o_Np l0) N /\ 0 < N /\ rep (o_W l0) W.
Proof.
  intros npi alpha1 smooth Hn. destruct midpoint_contracts as (M1 & _ & M2).
  destruct (d_loads npi midpoint 0 0 Hn M1 M2) as (l0 & l1 & N0 & N1 & T0 & T1 & E & R0 & _ & _ & _ & P0 & _ & _ & _ & RW).
  destruct (forward_ok npi midpoint midpoint_tame alpha1 smooth drag_af [0; 0] [0; 0] [0; 0] (0, 0, 0, 0) eq_refl) as (y & EY).
  assert (ED : twist_design npi midpoint alpha1 smooth forward (w_in drag_af [0; 0] [0; 0] [0; 0]) = Ok d_blade).
  { unfold twist_design, forward. cbn [wo_inverse w_in wi_args wi_theta_in]. rewrite w_construct. reflexivity. }
  destruct (lift_drag npi midpoint alpha1 smooth _ _ _ _ ltac:(lra) M1 EY) as (b & b1 & ls & ED' & _ & HT & _). rewrite ED in ED'. apply ok_inj in ED'. subst b.
  exists y, d_blade. do 5 eexists. split; [exact EY|]. split; [exact M1|]. split; [exact ED|]. split; [exact E|].
  split; [rewrite <- HT; reflexivity|]. split; [exact R0|]. split; [exact P0|exact RW].
Qed.

(** ** C58: the cap on the twist *)
(** [capped a b]: b has no twist above 20 degrees, equals a outboard of the outermost such station, and equals a if there is
    none. With airfoil design by neural network the capped profile goes through two spline interpolations, about which
    nothing is known. *)
Theorem C58_twist_cap : forall npi bq alpha1 smooth o i prev out, wo_inverse o = true ->
  twist_compute npi bq alpha1 smooth o i prev = Ok out ->
  exists b, inverse_design npi bq alpha1 o i = Ok b /\
    (wo_inn_af o = false -> capped (b_theta b) (wt_theta out)) /\
    (wo_inn_af o = true -> exists c, capped (b_theta b) c /\ wt_theta out = smooth (g_r (wi_args i)) (wi_s_opt i) c).
Proof. exact twist_capped. Qed.
Print Assumptions C58_twist_cap.

Example C58_example : forall alpha1 smooth, (* design angles 0 and 1 rad *)
  exists out, twist_compute (31 / 10) midpoint alpha1 smooth (inverse false) (w_in angle_lift [0; 0] [0; 1] [50; 0]) (0, 0, 0, 0) = Ok out.
Proof.
  intros alpha1 smooth. exact (inverse_compute_ok (31 / 10) midpoint midpoint_tame alpha1 (fun x _ => x) (fun _ _ => 0) 0 1
    ltac:(apply PI_dist; lra) ltac:(apply PI_dist; lra) smooth 50 (0, 0, 0, 0)).
Qed.
Example C58_example_profile : (* 30, 10, 25, 5 degrees: capped up to the third station *)
  capped [Fin (radians 30); Fin (radians 10); Fin (radians 25); Fin (radians 5)]
         [Fin (radians 20); Fin (radians 20); Fin (radians 20); Fin (radians 5)].
Proof.
  assert (H : cap_twist [Fin (radians 30); Fin (radians 10); Fin (radians 25); Fin (radians 5)] =
              [Fin (radians 20); Fin (radians 20); Fin (radians 20); Fin (radians 5)]).
  { pose proof PI_RGT_0. unfold cap_twist. cbn [length cap_from nth]. rewrite cap_value. cbn [nlt fl_arith flt fval].
    replace (rltb (radians 20) (radians 5)) with false by (symmetry; apply rltb_false; unfold radians; lra).
    replace (rltb (radians 20) (radians 25)) with true by (symmetry; apply rltb_true; unfold radians; lra). reflexivity. }
  rewrite <- H. apply cap_capped.
Qed.

(** ** C59: CCBladeLoads *)
(** Px = Np, Py = -Tp, Pz = 0, where Np and Tp are the loads of the rotor built from the inputs. *)
Theorem C59_load_signs : forall npi bq i o d, loads_compute npi bq i = Ok (o, d) ->
  lo_r o = li_r i /\ (forall k, lo_Pz o k = 0) /\
  exists fx D, object (load_rotor i) = Ok (fx, D) /\ f_n fx = length (li_r i) /\
    forall k, (k < length (li_r i))%nat -> exists l, station_result npi bq fx D k = Ok l /\ lo_Px o k = o_Np l /\ lo_Py o k = - o_Tp l.
Proof. exact loads_values. Qed.
Print Assumptions C59_load_signs.

(** For every history of calls: compute_partials answers as right after the latest successful compute, whatever inputs it is
    given itself; without such a call it raises AttributeError. *)
Theorem C59_latest_call : forall npi bq h,
  (forall i i' i'', latest npi bq h i ->
     partials_after npi bq h i' = partials_after npi bq [Compute i] i'' /\ succeeds (partials_after npi bq h i')) /\
  ((forall j, In (Compute j) h -> ~ succeeds (loads_compute npi bq j)) ->
     forall i', partials_after npi bq h i' = Raise AttributeError) /\
  ((exists i, latest npi bq h i) \/ (forall j, In (Compute j) h -> ~ succeeds (loads_compute npi bq j))).
Proof.
  exact (fun npi bq h => conj (partials_latest npi bq h) (conj (fun H i' => partials_none npi bq h i' H) (history_cases npi bq h))).
Qed.
Print Assumptions C59_latest_call.

(** The partials are the derivatives of the component's own outputs, with their signs, along every differentiable motion of
    the inputs that keeps the stations strictly between hub and tip. *)
Theorem C59_load_partials : forall npi bq h (I : R -> load_in) (t : R) (v : design) i' o d,
  latest npi bq h (I t) -> loads_compute npi bq (I t) = Ok (o, d) ->
  locally t (fun s => clear_ends (ri_args (load_rotor (I s))) /\ load_fixed (I s) = load_fixed (I t) /\
                      succeeds (loads_compute npi bq (I s))) ->
  let n := length (li_r (I t)) in let D s := load_design (I s) in
  design_derive n D t v -> wind_ok (load_fixed (I t)) D t -> radial_ok n (D t) v ->
  (forall k, (k < n)%nat -> station_ok npi bq (load_fixed (I t)) D t k) ->
  exists Jx Jy, partials_after npi bq h i' = Ok (Jx, Jy) /\
    forall k, (k < n)%nat ->
      is_derive (fun s => out (fun o => lo_Px (fst o) k) (loads_compute npi bq (I s))) t (load_J_rate n Jx v k) /\
      (lo_Py o k <> 0 -> is_derive (fun s => out (fun o => lo_Py (fst o) k) (loads_compute npi bq (I s))) t (load_J_rate n Jy v k)).
Proof. exact loads_partials_rate. Qed.
Print Assumptions C59_load_partials.

Lemma xl_succeeds npi s : 0 < s < 20 -> succeeds (loads_compute npi ex_bq (xl s 1 (1 / 2))).
Proof.
  intros Hs. unfold loads_compute. rewrite object_given by (apply xl_clear; lra). cbn [bind fst snd].
  destruct (ex_distributed npi s Hs) as (_ & _ & _ & _ & o & E).
  change (distributed_dv npi ex_bq (given_fixed (load_rotor (xl s 1 (1 / 2)))) (given_design (load_rotor (xl s 1 (1 / 2)))) = Ok o) in E.
  rewrite E. destruct o as [[[? ?] ?] ?]. cbn [bind]. eexists. reflexivity.
Qed.

Example C59_example : forall npi, let I s := xl s 1 (1 / 2) in
  latest npi ex_bq [Compute (xl 3 1 (1 / 2)); Partials (xl 7 1 (1 / 2)); Compute (I 10)] (I 10) /\
  locally 10 (fun s => clear_ends (ri_args (load_rotor (I s))) /\ load_fixed (I s) = load_fixed (I 10) /\ succeeds (loads_compute npi ex_bq (I s))) /\
  (let D s := load_design (I s) in
   design_derive 2 D 10 ex_v /\ wind_ok (load_fixed (I 10)) D 10 /\ radial_ok 2 (D 10) ex_v /\
   forall k, (k < 2)%nat -> station_ok npi ex_bq (load_fixed (I 10)) D 10 k).
Proof.
  intros npi I. split; [|split].
  - exists [Compute (xl 3 1 (1 / 2)); Partials (xl 7 1 (1 / 2))], []. split; [reflexivity|]. split; [apply xl_succeeds; lra|intros j []].
  - apply filter_imp with (2 := ex_locally 10 ltac:(lra)). intros s Hs. split; [apply xl_clear; lra|]. split; [reflexivity|apply xl_succeeds; exact Hs].
  - destruct (ex_distributed npi 10 ltac:(lra)) as (A & B & C & E & _). cbv zeta.
    split; [exact A|]. split; [exact B|]. split; [exact C|]. exact E.
Qed.

(** ** C60: CCBladeEvaluate *)
(** False: the density partial is left at zero. *)
Theorem C60_density_partial_refuted : forall npi, exists bq i o J, eval_compute npi bq i = Ok o /\ eval_partials npi bq i = Ok J /\
  is_derive (fun rho => out (fun o => eo_Fhub o 0%nat) (eval_compute npi bq (set_rho i rho))) (ei_rho i) (eo_Fhub o 0%nat / ei_rho i) /\
  eo_Fhub o 0%nat / ei_rho i <> K_rho (K_Fhub J 0%nat).
Proof. exact rho_witness. Qed.
Print Assumptions C60_density_partial_refuted.

(** In general (airfoils that ignore the Reynolds number): the true density partials of loads and power are output / rho, the
    reported ones are 0. *)
Theorem C60_density_partials_zero : forall npi bq i o J, clear_ends (ri_args (eval_rotor i)) -> (forall k, re_free (ei_af i k)) -> ei_rho i <> 0 ->
  eval_compute npi bq i = Ok o -> eval_partials npi bq i = Ok J ->
  let d f := is_derive (fun rho => out f (eval_compute npi bq (set_rho i rho))) (ei_rho i) (f o / ei_rho i) in
  d eo_P /\ K_rho (K_P J) = 0 /\ d eo_Mb /\ K_rho (K_Mb J) = 0 /\
  forall k, (k < 3)%nat -> d (fun o => eo_Fhub o k) /\ K_rho (K_Fhub J k) = 0 /\ d (fun o => eo_Mhub o k) /\ K_rho (K_Mhub J k) = 0.
Proof. exact rho_partials. Qed.
Print Assumptions C60_density_partials_zero.

(** All other real inputs: the reported partials are the derivatives. Coefficients need the quantity to be non-zero. *)
Theorem C60_other_partials_partial : forall npi bq (I : R -> eval_in) (t : R) (v : design) J o,
  eval_partials npi bq (I t) = Ok J -> eval_compute npi bq (I t) = Ok o ->
  locally t (fun s => clear_ends (ri_args (eval_rotor (I s))) /\ eval_fixed (I s) = eval_fixed (I t) /\ succeeds (eval_compute npi bq (I s))) ->
  let n := length (ei_r (I t)) in let D s := eval_design (I s) in let fx := eval_fixed (I t) in
  let rate K := eval_J_rate n K v in
  let tracks (f : eval_out -> R) K := is_derive (fun s => out f (eval_compute npi bq (I s))) t (rate K) in
  design_derive n D t v -> sectors_ok npi bq fx D t v ->
  (tracks eo_P (K_P J) /\ tracks eo_Mb (K_Mb J) /\
   forall k, (k < 3)%nat -> tracks (fun o => eo_Fhub o k) (K_Fhub J k) /\ tracks (fun o => eo_Mhub o k) (K_Mhub J k)) /\
  (rotor_radius (D t) <> 0 -> ei_V (I t) <> 0 -> ei_rho (I t) <> 0 ->
   (eo_P o <> 0 -> tracks eo_CP (K_CP J)) /\ (eo_Mb o <> 0 -> tracks eo_CMb (K_CMb J)) /\
   forall k, (k < 3)%nat -> (eo_Fhub o k <> 0 -> tracks (fun o => eo_CFhub o k) (K_CFhub J k)) /\
                            (eo_Mhub o k <> 0 -> tracks (fun o => eo_CMhub o k) (K_CMhub J k))).
Proof. exact eval_partials_rate. Qed.
Print Assumptions C60_other_partials_partial.

Example C60_example : forall npi, let I s := xr s 1 0 in
  (exists J, eval_partials npi ex_bq (I 3) = Ok J) /\ (exists o, eval_compute npi ex_bq (I 3) = Ok o) /\
  locally 3 (fun s => clear_ends (ri_args (eval_rotor (I s))) /\ eval_fixed (I s) = eval_fixed (I 3) /\ succeeds (eval_compute npi ex_bq (I s))) /\
  design_derive 2 (fun s => eval_design (I s)) 3 ex_v /\ sectors_ok npi ex_bq (eval_fixed (I 3)) (fun s => eval_design (I s)) 3 ex_v.
Proof.
  intros npi I.
  assert (OK : forall s, 0 < s < 5 -> succeeds (eval_compute npi ex_bq (I s))).
  { intros s Hs. destruct (xr_outputs npi s 1 0 Hs) as (o & E & _); [rewrite radians_0, cos_0; lra|]. exists o. exact E. }
  split; [apply xr_partials; lra|]. split; [apply OK; lra|]. split.
  - assert (L : locally 3 (fun s => 0 < s < 5)).
    { exists (mkposreal 1 Rlt_0_1). intros s Hs. apply Rabs_lt_between in Hs. unfold minus, plus, opp in Hs. cbn in Hs. lra. }
    apply filter_imp with (2 := L). intros s Hs. split; [apply xr_clear|]. split; [unfold I; rewrite !xr_fixed0; reflexivity|apply OK; exact Hs].
  - destruct (ex_evaluate 1 npi 3 ltac:(lra)) as (A & B & _). unfold I. rewrite xr_fixed0. split; [exact A|exact B].
Qed.

(** ** C72: partials where the inflow becomes axisymmetric *)
(** False: at zero yaw, tilt and shear one azimuth is used instead of several; the output jumps, so no number is its derivative. *)
Theorem C72_yaw_partial_refuted : forall npi, exists bq i o J, eval_compute npi bq i = Ok o /\ eval_partials npi bq i = Ok J /\
  locally (ei_yaw i) (fun y => succeeds (eval_compute npi bq (set_yaw i y))) /\
  forall l, ~ is_derive (fun y => out (fun o => eo_Mhub o 1%nat) (eval_compute npi bq (set_yaw i y))) (ei_yaw i) l.
Proof. exact yaw_witness. Qed.
Print Assumptions C72_yaw_partial_refuted.

(** ** C73: the hub radius when the first station is at the hub *)
(** False: the constructor moves that station, but only for exactly equal radii; the load jumps. *)
Theorem C73_hub_radius_refuted : forall npi, exists bq i o, loads_compute npi bq i = Ok o /\ hd 0 (li_r i) = li_Rhub i /\
  (forall h, succeeds (loads_compute npi bq (set_Rhub i h))) /\
  forall l, ~ is_derive (fun h => out (fun o => lo_Px (fst o) 0%nat) (loads_compute npi bq (set_Rhub i h))) (li_Rhub i) l.
Proof. exact hub_witness. Qed.
Print Assumptions C73_hub_radius_refuted.

(** ** C74: declared outputs P, T, Q, M of CCBladeTwist *)
(** False: the thrust of the evaluated rotor is positive, the output is still its initial 0. *)
Theorem C74_twist_totals_refuted : forall npi bq alpha1 smooth, 3 < npi < PI -> root_inside bq -> accepts_sign_change bq ->
  exists o i b y b' w out, twist_compute npi bq alpha1 smooth o i (0, 0, 0, 0) = Ok out /\ twist_design npi bq alpha1 smooth o i = Ok b /\
    evaluate npi bq b [(wi_Uhub i, twist_Omega i, wi_pitch i)] = Ok (b', [Some y], w) /\
    0 < t_T (y_tot y) /\ snd (fst (fst (wt_PTQM out))) = 0.
Proof.
  intros npi bq alpha1 smooth Hn H1 H2. destruct (d_forward npi bq alpha1 smooth (0, 0, 0, 0) Hn H1 H2) as (b & out & y & b' & w & A & B & C & D & E & _).
  exists forward, (w_in drag_af [0; 0] [0; 0] [0; 0]), b, y, b', w, out. rewrite w_Omega. split; [exact B|]. split; [exact A|]. split; [exact C|]. split; [exact D|].
  rewrite E. reflexivity.
Qed.
Print Assumptions C74_twist_totals_refuted.

(** ** C75: the Reynolds number of the design point *)
(** False: the tables are read at a Reynolds number taken with revolutions per minute. *)
Theorem C75_design_reynolds_refuted : forall npi bq alpha1, only_value_error bq -> exists o i b, inverse_design npi bq alpha1 o i = Ok b /\
  let g := wi_args i in let Re := section_Re (g_rho g) (g_mu g) (aget (g_chord g) 0%nat) (swept_speed i (last (g_r g) 0) (aget (g_r g) 0%nat)) in
  1 / 10000 <= Rabs (aget (wi_aoa_op i) 0%nat - PI) /\
  ~ rep (fst (nth 0%nat (g_af g) (fun _ _ => (NaN, NaN)) (Fin (aget (wi_aoa_op i) 0%nat)) (Fin Re))) (aget (b_cl b) 0%nat).
Proof. exact reynolds_witness. Qed.
Print Assumptions C75_design_reynolds_refuted.

(** What is read and stored instead: with m the first station thinner than 95 percent, the coefficients of every station are
    those at its own design angle and 30/pi times its Reynolds number; the stored angle of a station inboard of m is that of m. *)
Theorem C75_design_point_partial : forall npi bq alpha1 o i b, last (g_r (wi_args i)) 0 <> 0 -> g_mu (wi_args i) <> 0 ->
  inverse_design npi bq alpha1 o i = Ok b ->
  exists m al, first_below_95 (wi_rthick i) m /\ (m < length (g_r (wi_args i)))%nat /\
  forall k, (k < length (g_r (wi_args i)))%nat ->
    (exists a, nth_error (wi_aoa_op i) k = Some a /\ (1 / 10000 <= Rabs (a - PI) -> al k = a) /\
       (Rabs (a - PI) < 1 / 10000 -> exists a1, alpha1 k = Ok a1 /\ al k = radians (a1 - degrees (wo_margin o)))) /\
    (exists af, nth_error (g_af (wi_args i)) k = Some af /\
       let Re := 30 / PI * section_Re (g_rho (wi_args i)) (g_mu (wi_args i)) (aget (g_chord (wi_args i)) k)
                   (swept_speed i (last (g_r (wi_args i)) 0) (aget (g_r (wi_args i)) k)) in
       rep (fst (af (Fin (al k)) (Fin Re))) (aget (b_cl b) k) /\ rep (snd (af (Fin (al k)) (Fin Re))) (aget (b_cd b) k)) /\
    aget (b_alpha b) k = al (Nat.max m k).
Proof. exact inverse_targets. Qed.
Print Assumptions C75_design_point_partial.

Example C75_example : forall alpha1, let i := w_in angle_lift [0; 0] [1; 2] [100; 0] in
  last (g_r (wi_args i)) 0 <> 0 /\ g_mu (wi_args i) <> 0 /\
  exists b, inverse_design (31 / 10) midpoint alpha1 (inverse false) i = Ok b.
Proof.
  intros alpha1 i. split; [cbn; lra|]. split; [cbn; lra|].
  destruct (inverse_ok (31 / 10) midpoint midpoint_tame alpha1 (fun x _ => x) (fun _ _ => 0) 1 2 ltac:(apply PI_dist; lra) ltac:(apply PI_dist; lra) false 100) as (b & E & _).
  exists b. exact E.
Qed.

(** ** C76: tip-speed ratio *)
(** False: the last station, not the tip, moves at tsr * Uhub. Here there is no induction, and the local speed is not that of
    a rotor with the given tip-speed ratio. *)
Theorem C76_tip_speed_refuted : forall npi bq alpha1 smooth, 3 < npi < PI -> root_inside bq -> accepts_sign_change bq ->
  exists o i out W, twist_compute npi bq alpha1 smooth o i (0, 0, 0, 0) = Ok out /\
    let g := wi_args i in g_precone g = 0 /\ g_tilt g = 0 /\ g_yaw g = 0 /\ g_shearExp g = 0 /\ g_precurve g = None /\ g_presweep g = None /\
    rep (nth 0%nat (wt_a out) NaN) 0 /\ rep (nth 0%nat (wt_ap out) NaN) 0 /\ rep (nth 0%nat (wt_W out) NaN) W /\
    W ^ 2 <> wi_Uhub i ^ 2 + swept_speed i (g_Rtip g) (aget (g_r g) 0%nat) ^ 2.
Proof.
  intros npi bq alpha1 smooth Hn H1 H2. destruct (d_forward npi bq alpha1 smooth (0, 0, 0, 0) Hn H1 H2) as (b & out & y & b' & w & A & B & C & D & E & F & G & H).
  exists forward, (w_in drag_af [0; 0] [0; 0] [0; 0]), out, (sqrt 2). split; [exact B|]. cbv zeta. do 6 (split; [reflexivity|]).
  split; [exact F|]. split; [exact G|]. split; [exact H|]. rewrite pow2_sqrt by lra. unfold swept_speed, w_in, w_args, aget. cbn. lra.
Qed.
Print Assumptions C76_tip_speed_refuted.

(** The speed of the last station, and of the tip if the last station is there. *)
Theorem C76_last_station_partial : forall i, last (g_r (wi_args i)) 0 <> 0 ->
  (forall r, twist_Omega i * PI / 30 * r = swept_speed i (last (g_r (wi_args i)) 0) r) /\
  (last (g_r (wi_args i)) 0 = g_Rtip (wi_args i) -> twist_Omega i * PI / 30 * g_Rtip (wi_args i) = wi_tsr i * wi_Uhub i).
Proof.
  intros i H. unfold twist_Omega, swept_speed. split.
  - intros r. field. split; auto using PI_neq0.
  - intros E. rewrite <- E. field. split; auto using PI_neq0.
Qed.
Print Assumptions C76_last_station_partial.

(** ** C77: design angle and design coefficients at the root *)
(** False: the angle of thick root stations is replaced, their coefficients are not. The positive part is C75_design_point_partial:
    from the first station thinner than 95 percent on, angle and coefficients agree. *)
Theorem C77_root_point_refuted : forall npi bq alpha1, only_value_error bq -> exists o i b, inverse_design npi bq alpha1 o i = Ok b /\
  forall Re, ~ rep (fst (nth 0%nat (g_af (wi_args i)) (fun _ _ => (NaN, NaN)) (Fin (aget (b_alpha b) 0%nat)) (Fin Re))) (aget (b_cl b) 0%nat).
Proof. exact root_witness. Qed.
Print Assumptions C77_root_point_refuted.

Example C75_C77_premise : exists bq, only_value_error bq /\ root_inside bq /\ accepts_sign_change bq.
Proof. exists midpoint. split; [exact midpoint_tame|]. split; apply midpoint_contracts. Qed.
