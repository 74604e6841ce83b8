(** Model of the OpenMDAO components (ccblade/ccblade_component.py). Simplifications common to all of them: inputs of shape
    (1,) are numbers; OpenMDAO itself (units, shapes) is not modelled, what setup declares is in ComponentSetup.v; CCAirfoil objects
    built from the tables are the airfoil functions given as inputs; lengths n_span of all span-wise inputs are those of r. *)
From Coq Require Import Reals Bool Arith List Lra.
From Verif Require Import Prelim Num Bem Interp BemDiff Blade BladeDiff.
Import ListNotations.
Open Scope R_scope.

(** ** CCBladeGeometry, ccblade_component.py:12-85 *)
Record geom_in := mkGeomIn { gi_Rtip : R; gi_precurve : list R; gi_presweep : list R; gi_precone : R }.
Record geom_out := mkGeomOut { go_R : R; go_diameter : R; go_precurveTip : R; go_presweepTip : R }.

(** cosd, sind: ccblade_component.py:8-9. *)
Definition cosd (x : R) : R := cos (radians x).
Definition sind (x : R) : R := sin (radians x).

(** a[-1] *)
Definition pylast (l : list R) : res R := match l with [] => Raise IndexError | _ => Ok (last l 0) end.

(** compute, ccblade_component.py:64-72 *)
Definition geometry_compute (i : geom_in) : res geom_out :=
  do pc <- pylast (gi_precurve i);
  do ps <- pylast (gi_presweep i);
  let R := gi_Rtip i * cosd (gi_precone i) + pc * sind (gi_precone i) in
  Ok (mkGeomOut R (R * 2) pc ps).

(** Rows of the Jacobian of one output: by Rtip, by precone, by each entry of precurve_in and of presweep_in. *)
Record geom_row := mkGeomRow { gr_Rtip : R; gr_precone : R; gr_precurve : arr; gr_presweep : arr }.
Record geom_jac := mkGeomJac { gj_R : geom_row; gj_diameter : geom_row; gj_precurveTip : geom_row; gj_presweepTip : geom_row }.

(** declare_partials(rows=[0], cols=[n_span-1]): one entry, in the last column. *)
Definition last_col (n : nat) (v : R) : arr := fun j => if Nat.eqb j (n - 1) then v else 0.

(** compute_partials and the declarations in setup, ccblade_component.py:56-62 and 74-85; undeclared pairs are zero. *)
Definition geometry_partials (i : geom_in) : res geom_jac :=
  do pc <- pylast (gi_precurve i);
  let n := length (gi_precurve i) in
  let none := fun _ : nat => 0 in
  let c := cosd (gi_precone i) in
  let s := sind (gi_precone i) in
  let cone := (- gi_Rtip i * s + pc * c) * PI / 180 in
  Ok (mkGeomJac (mkGeomRow c cone (last_col n s) none)
                (mkGeomRow (2 * c) (2 * cone) (last_col n (2 * s)) none)
                (mkGeomRow 0 0 (last_col n 1) none)
                (mkGeomRow 0 0 none (last_col n 1))).

(** ** The CCBlade object built by CCBladeLoads and CCBladeEvaluate, on exact reals *)

(** The record [args] holds the arguments of the constructor; the airfoils are real functions here. Call with wind speed
    U, rotor speed Om (RPM), pitch p and azimuth az (degrees). *)
Record call := mkCall { k_U : R; k_Om : R; k_p : R; k_az : R }.
Record rotor_in := mkRotorIn { ri_args : args; ri_af : nat -> airfoil R; ri_afd : nat -> airfoil_dv; ri_call : call }.

(** ccblade_component.py:309-332 (Loads), 809-834 and 887-912 (Evaluate): CCBlade.__init__, then the call's arguments. *)
Definition object (i : rotor_in) : res (fixed * design) :=
  let g := ri_args i in
  let k := ri_call i in
  do b <- construct g;
  Ok (mkFixed (length (b_r b)) (ri_af i) (ri_afd i) (b_B b) (b_rho b) (b_mu b) (b_opts b) (b_iterRe b) (b_nSector b),
      mkDesign (aget (b_r b)) (aget (b_chord b)) (aget (g_theta g)) (aget (b_precurve b)) (aget (b_presweep b))
        (g_precone g) (g_tilt g) (b_hubHt b) (b_Rhub b) (b_Rtip b) (b_precurveTip b) (b_presweepTip b)
        (g_yaw g) (b_shearExp b) (k_az k) (k_U k) (k_Om k) (k_p k)).

(** len(precurve) == 0: ccblade_component.py:295-296, 795-796, 873-874. *)
Definition fill_precurve (r precurve : list R) : list R :=
  match precurve with [] => map (fun _ => 0) r | _ => precurve end.

(** ** CCBladeLoads, ccblade_component.py:88-381 *)

(** Inputs. No presweep; [li_opts] are tiploss, hubloss, wakerotation, usecd. *)
Record load_in := mkLoadIn {
  li_r : list R; li_chord : list R; li_theta : list R; li_Rhub : R; li_Rtip : R; li_hub_height : R;
  li_precone : R; li_tilt : R; li_yaw : R; li_precurve : list R; li_precurveTip : R; li_B : nat; li_rho : R; li_mu : R;
  li_shearExp : R; li_nSector : nat; li_opts : bemopts; li_V : R; li_Omega : R; li_pitch : R; li_azimuth : R;
  li_af : nat -> airfoil R; li_afd : nat -> airfoil_dv }.

Definition load_rotor (i : load_in) : rotor_in :=
  mkRotorIn (mkArgs (li_r i) (li_chord i) (li_theta i) [] (li_Rhub i) (li_Rtip i) (li_B i) (li_rho i) (li_mu i)
               (li_precone i) (li_tilt i) (li_yaw i) (li_shearExp i) (li_hub_height i) (li_nSector i)
               (Some (fill_precurve (li_r i) (li_precurve i))) (li_precurveTip i) None 0 (li_opts i) 1)
    (li_af i) (li_afd i) (mkCall (li_V i) (li_Omega i) (li_pitch i) (li_azimuth i)).

Record load_out := mkLoadOut { lo_r : list R; lo_Px : arr; lo_Py : arr; lo_Pz : arr }.
(** self.derivs: the dictionaries dNp and dTp. *)
Definition derivs : Type := ldict * ldict.

(** compute, ccblade_component.py:269-345: outputs and the new self.derivs. *)
Definition loads_compute (npi : R) (bq : rootfinder R) (i : load_in) : res (load_out * derivs) :=
  do o <- object (load_rotor i);
  do out <- distributed_dv npi bq (fst o) (snd o);
  let '(Np, Tp, dNp, dTp) := out in
  Ok (mkLoadOut (li_r i) Np (fun j => - Tp j) (fun _ => 0), (dNp, dTp)).

(** J of one of the outputs loads_Px, loads_Py: entry (i, j) is d P_i / d x_j. *)
Record load_jac_row := mkLJ {
  J_r : nat -> arr; J_chord : nat -> arr; J_theta : nat -> arr; J_precurve : nat -> arr;
  J_Rhub : arr; J_Rtip : arr; J_hub_height : arr; J_precone : arr; J_tilt : arr; J_yaw : arr; J_shearExp : arr;
  J_V_load : arr; J_Omega_load : arr; J_pitch_load : arr; J_azimuth_load : arr }.

(** compute_partials, ccblade_component.py:347-381; it does not look at its inputs. *)
Definition loads_partials (d : derivs) : load_jac_row * load_jac_row :=
  let '(dNp, dTp) := d in
  let m1 (f : arr) : arr := fun i => - f i in
  let m2 (f : nat -> arr) : nat -> arr := fun i j => - f i j in
  (mkLJ (l_dr dNp) (l_dchord dNp) (l_dtheta dNp) (l_dprecurve dNp)
        (l_dRhub dNp) (l_dRtip dNp) (l_dhubHt dNp) (l_dprecone dNp) (l_dtilt dNp) (l_dyaw dNp) (l_dshear dNp)
        (l_dUinf dNp) (l_dOmega dNp) (l_dpitch dNp) (l_dazimuth dNp),
   mkLJ (m2 (l_dr dTp)) (m2 (l_dchord dTp)) (m2 (l_dtheta dTp)) (m2 (l_dprecurve dTp))
        (m1 (l_dRhub dTp)) (m1 (l_dRtip dTp)) (m1 (l_dhubHt dTp)) (m1 (l_dprecone dTp)) (m1 (l_dtilt dTp)) (m1 (l_dyaw dTp))
        (m1 (l_dshear dTp)) (m1 (l_dUinf dTp)) (m1 (l_dOmega dTp)) (m1 (l_dpitch dTp)) (m1 (l_dazimuth dTp))).

(** The object's life: calls of compute and of compute_partials. [None]: no attribute derivs yet. *)
Inductive lcall := Compute (i : load_in) | Partials (i : load_in).
Inductive lresult := ROut (o : res load_out) | RJac (j : res (load_jac_row * load_jac_row)).

Definition loads_step (npi : R) (bq : rootfinder R) (st : option derivs) (c : lcall) : option derivs * lresult :=
  match c with
  | Compute i => match loads_compute npi bq i with
                 | Ok (o, d) => (Some d, ROut (Ok o))
                 | Raise e => (st, ROut (Raise e))
                 end
  | Partials _ => (st, RJac (match st with Some d => Ok (loads_partials d) | None => Raise AttributeError end))
  end.

(** State after a list of calls on a new component. *)
Definition loads_run (npi : R) (bq : rootfinder R) (h : list lcall) : option derivs :=
  fold_left (fun st c => fst (loads_step npi bq st c)) h None.

(** ** CCBladeEvaluate, ccblade_component.py:699-1218 *)
Record eval_in := mkEvalIn {
  ei_r : list R; ei_chord : list R; ei_theta : list R; ei_Rhub : R; ei_Rtip : R; ei_hub_height : R;
  ei_precone : R; ei_tilt : R; ei_yaw : R; ei_precurve : list R; ei_precurveTip : R; ei_presweep : list R;
  ei_presweepTip : R; ei_B : nat; ei_rho : R; ei_mu : R; ei_shearExp : R; ei_nSector : nat; ei_opts : bemopts;
  ei_V : R; ei_Omega : R; ei_pitch : R; ei_af : nat -> airfoil R; ei_afd : nat -> airfoil_dv }.

Definition eval_rotor (i : eval_in) : rotor_in :=
  mkRotorIn (mkArgs (ei_r i) (ei_chord i) (ei_theta i) [] (ei_Rhub i) (ei_Rtip i) (ei_B i) (ei_rho i) (ei_mu i)
               (ei_precone i) (ei_tilt i) (ei_yaw i) (ei_shearExp i) (ei_hub_height i) (ei_nSector i)
               (Some (fill_precurve (ei_r i) (ei_precurve i))) (ei_precurveTip i)
               (Some (ei_presweep i)) (ei_presweepTip i) (ei_opts i) 1)
    (ei_af i) (ei_afd i) (mkCall (ei_V i) (ei_Omega i) (ei_pitch i) 0).

(** Outputs; Fhub = (T, Y, Z), Mhub = (Q, My, Mz), and the same for the coefficients. *)
Record eval_out := mkEvalOut {
  eo_P : R; eo_Mb : R; eo_CP : R; eo_CMb : R; eo_Fhub : arr; eo_Mhub : arr; eo_CFhub : arr; eo_CMhub : arr }.

Definition vec3 {X} (d x y z : X) : nat -> X := fun k => nth k [x; y; z] d.

(** evaluate without derivatives for one condition, ccblade.py:1271-1370 (the loop over azimuths, the totals, power and
    coefficients), on exact reals: the loads of all stations, then their integrals, as in BladeDiff.v. *)
Definition loads_list (npi : R) (bq : rootfinder R) (fx : fixed) (D : design) : res (list (sload R)) :=
  mapM (fun i => solve_station npi bq (rotor_d fx D) (negb (reqb (x_Omega D) 0)) (sect_d fx D i)) (seq 0 (f_n fx)).
Definition tot_step (fx : fixed) (D : design) (az : R) (Np Tp : arr) (u : totals) : totals :=
  let ca := cos az in let sa := sin az in
  let B := INR (f_B fx) in let nsec := INR (f_nSector fx) in
  let '(Tsub, Ysub, Zsub, Qsub, Msub) :=
    thrustTorque (f_n fx) Np Tp (x_r D) (x_precurve D) (x_presweep D) (radians (x_precone D))
      (x_Rhub D) (x_Rtip D) (x_precurveTip D) (x_presweepTip D) in
  mkTot (t_T u + B * Tsub / nsec) (t_Y u + B * (Ysub * ca - Zsub * sa) / nsec)
        (t_Z u + B * (Zsub * ca + Ysub * sa) / nsec) (t_Q u + B * Qsub / nsec)
        (t_My u + B * Msub * ca / nsec) (t_Mz u + B * Msub * sa / nsec) (t_Mb u + Msub / nsec).
Fixpoint sectors_val (npi : R) (bq : rootfinder R) (fx : fixed) (D : design) (azs : list R) (u : totals) : res totals :=
  match azs with
  | [] => Ok u
  | az :: azs' =>
      do ls <- loads_list npi bq fx (set_azimuth D (degrees az));
      sectors_val npi bq fx D azs' (tot_step fx D az (fun i => o_Np (nth i ls zero_load)) (fun i => o_Tp (nth i ls zero_load)) u)
  end.
Definition eval_finish (fx : fixed) (D : design) (t : totals) : eval_out :=
  let P := t_Q t * x_Omega D * PI / 30 in
  let q := 1 / 2 * f_rho fx * x_Uinf D ^ 2 in
  let Rr := x_Rtip D * cos (radians (x_precone D)) + x_precurveTip D * sin (radians (x_precone D)) in
  let A := PI * Rr ^ 2 in
  mkEvalOut P (t_Mb t) (P / (q * A * x_Uinf D)) (t_Mb t / (q * Rr * A))
    (vec3 0 (t_T t) (t_Y t) (t_Z t)) (vec3 0 (t_Q t) (t_My t) (t_Mz t))
    (vec3 0 (t_T t / (q * A)) (t_Y t / (q * A)) (t_Z t / (q * A)))
    (vec3 0 (t_Q t / (q * Rr * A)) (t_My t / (q * Rr * A)) (t_Mz t / (q * Rr * A))).

(** compute, ccblade_component.py:768-844; the object there has derivatives=False. *)
Definition eval_compute (npi : R) (bq : rootfinder R) (i : eval_in) : res eval_out :=
  do o <- object (eval_rotor i);
  do t <- sectors_val npi bq (fst o) (snd o) (azimuths (f_nSector (fst o))) tot0;
  Ok (eval_finish (fst o) (snd o) t).

(** One row of J: the 17 inputs assigned by compute_partials, and rho and mu, which are declared but never assigned and
    so keep OpenMDAO's initial value 0. *)
Record eval_row := mkEvalRow {
  K_r : arr; K_chord : arr; K_theta : arr; K_precurve : arr; K_presweep : arr;
  K_Rhub : R; K_Rtip : R; K_hub_height : R; K_precone : R; K_tilt : R; K_yaw : R; K_shearExp : R;
  K_V_load : R; K_Omega_load : R; K_pitch_load : R; K_precurveTip : R; K_presweepTip : R; K_rho : R; K_mu : R }.

(** ccblade_component.py:916-933 and the same 17 lines for each of the other 15 rows, to line 1218. *)
Definition eval_row_of (E : tdict) : eval_row :=
  mkEvalRow (e_dr E) (e_dchord E) (e_dtheta E) (e_dprecurve E) (e_dpresweep E)
    (e_dRhub E) (e_dRtip E) (e_dhubHt E) (e_dprecone E) (e_dtilt E) (e_dyaw E) (e_dshear E)
    (e_dUinf E) (e_dOmega E) (e_dpitch E) (e_dprecurveTip E) (e_dpresweepTip E) 0 0.

Record eval_jac := mkEvalJac {
  K_P : eval_row; K_Mb : eval_row; K_CP : eval_row; K_CMb : eval_row;
  K_Fhub : nat -> eval_row; K_Mhub : nat -> eval_row; K_CFhub : nat -> eval_row; K_CMhub : nat -> eval_row }.

(** compute_partials, ccblade_component.py:846-1218 *)
Definition eval_partials (npi : R) (bq : rootfinder R) (i : eval_in) : res eval_jac :=
  do o <- object (eval_rotor i);
  do E <- evaluate_dv npi bq (fst o) (snd o);
  let w := eval_row_of in
  Ok (mkEvalJac (w (ev_dP E)) (w (ev_dMb E)) (w (ev_dCP E)) (w (ev_dCMb E))
        (vec3 (w (ev_dT E)) (w (ev_dT E)) (w (ev_dY E)) (w (ev_dZ E)))
        (vec3 (w (ev_dQ E)) (w (ev_dQ E)) (w (ev_dMy E)) (w (ev_dMz E)))
        (vec3 (w (ev_dCT E)) (w (ev_dCT E)) (w (ev_dCY E)) (w (ev_dCZ E)))
        (vec3 (w (ev_dCQ E)) (w (ev_dCQ E)) (w (ev_dCMy E)) (w (ev_dCMz E)))).

(** ** CCBladeTwist, ccblade_component.py:384-696 *)

(** DirectionVector.bladeToAirfoil (csystem.py:331-347, see CSystem.v): the x and y components, over any carrier; z is kept. *)
Definition to_airfoil {A} `{Arith A} (x y theta : A) : A * A :=
  let t := nmul (nmul theta (ofR (-1))) (ofR (PI / 180)) in
  (nadd (nmul x (ncos t)) (nmul y (nsin t)), nadd (nmul (nopp x) (nsin t)) (nmul y (ncos t))).

(** The cap loop, ccblade_component.py:624-627: i counts stations from the tip; at the first one above the cap it and all
    stations inboard of it are set to the cap. *)
Definition twist_cap : R := 20 / 180 * PI.
Fixpoint cap_from (k : nat) (theta : list fl) : list fl :=
  match k with
  | O => theta
  | S k' => if nlt (Fin twist_cap) (nth k' theta NaN)
            then repeat (Fin twist_cap) k ++ skipn k theta
            else cap_from k' theta
  end.
Definition cap_twist (theta : list fl) : list fl := cap_from (length theta) theta.

(** Options: twist.inverse, twist.flag, inn_af, stall margin (radians). *)
Record twist_opts := mkTwistOpts { wo_inverse : bool; wo_flag : bool; wo_inn_af : bool; wo_margin : R }.

(** Inputs: the arguments of CCBlade (twist is all zeros there), Uhub, tsr, pitch, theta_in and aoa_op (radians), rthick,
    s_opt_theta. *)
Record twist_in := mkTwistIn {
  wi_args : args; wi_Uhub : R; wi_tsr : R; wi_pitch : R; wi_theta_in : list R; wi_aoa_op : list R; wi_rthick : list R;
  wi_s_opt : list R }.

(** Outputs assigned by compute, in the component's order (per station lists). The declared outputs P, T, Q, M are not
    assigned at all: the four of [wt_PTQM] keep their previous value. *)
Record twist_out := mkTwistOut {
  wt_theta : list fl; wt_CP : option R; wt_CM : option R; wt_W : list fl;
  wt_a : list fl; wt_ap : list fl; wt_alpha : list fl; wt_cl : list fl; wt_cd : list fl;
  wt_Px_b : list fl; wt_Py_b : list fl; wt_Pz_b : list fl; wt_Px_af : list fl; wt_Py_af : list fl; wt_Pz_af : list fl;
  wt_LiftF : list fl; wt_DragF : list fl;
  wt_cl_opt : option (list R); wt_cd_opt : option (list R); wt_L_opt : option (list R); wt_D_opt : option (list R);
  wt_PTQM : R * R * R * R }.

(** np.nan_to_num: only NaN is replaced here (the huge finite values put for infinities are not modelled). *)
Definition nan_to_num (x : fl) : fl := match x with NaN => Fin 0 | _ => x end.

Section Twist.
Variable npi : R.
Variable bq : rootfinder fl.
(** unsteady["alpha1"] (degrees) after af[i].eval_unsteady of the tables of station i. *)
Variable alpha1 : nat -> res R.
(** The two Pchip interpolations of the smoothing step: from the station grid to s_opt_theta and back. *)
Variable smooth : list R -> list R -> list fl -> list fl.

(** ccblade_component.py:584; r[-1] <> 0. Note: not the rotor radius but the last station. *)
Definition twist_Omega (i : twist_in) : R := wi_tsr i * wi_Uhub i / last (g_r (wi_args i)) 0 * 30 / PI.

(** Reynolds number for the table lookup, ccblade_component.py:596; Omega is in RPM there. *)
Definition twist_Re (i : twist_in) (k : nat) : R :=
  let g := wi_args i in twist_Omega i * aget (g_r g) k * aget (g_chord g) k * g_rho g / g_mu g.

(** The loop of lines 598-610, for station k: (alpha, cl, cd). Non-finite coefficients are not modelled. *)
Definition target (o : twist_opts) (i : twist_in) (k : nat) : res (R * R * R) :=
  do aoa <- pyget (wi_aoa_op i) k;
  do alpha <- (if rltb (Rabs (aoa - PI)) (1 / 10000)
               then do a1 <- alpha1 k; Ok ((a1 - wo_margin o * 180 / PI) / 180 * PI)
               else Ok aoa);
  do af <- pyget (g_af (wi_args i)) k;
  let '(cl, cd) := af (Fin alpha) (Fin (twist_Re i k)) in
  match fval cl, fval cd with
  | Some x, Some y => Ok (alpha, x, y)
  | _, _ => Raise OtherException
  end.

(** idx_min, line 613: the first station with rthick < 95. *)
Fixpoint first_thin (k : nat) (rthick : list R) : res nat :=
  match rthick with
  | [] => Raise IndexError
  | t :: l => if rltb t 95 then Ok k else first_thin (S k) l
  end.

(** alpha[0:idx_min] = alpha[idx_min], line 614 *)
Definition overwrite_root (idx : nat) (alpha : list R) : res (list R) :=
  do a <- pyget alpha idx; Ok (repeat a idx ++ skipn idx alpha).

Definition set_inverse (b : blade) (inv : bool) (theta : list fl) (cl cd alpha : list R) : blade :=
  mkBlade (b_r b) (b_chord b) theta (b_af b) (b_Rhub b) (b_Rtip b) (b_B b) (b_rho b) (b_mu b)
    (b_precone b) (b_tilt b) (b_yaw b) (b_shearExp b) (b_hubHt b) (b_opts b) (b_iterRe b)
    (b_precurve b) (b_precurveTip b) (b_presweep b) (b_presweepTip b) (b_rotorR b) (b_nSector b)
    inv cl cd alpha (b_pitch b).

(** Inverse design, lines 582-622: the object after evaluate in inverse mode. *)
Definition inverse_design (o : twist_opts) (i : twist_in) : res blade :=
  let g := wi_args i in
  do b <- construct g;
  do tg <- mapM (target o i) (seq 0 (length (g_r g)));
  let alpha := map (fun t => fst (fst t)) tg in
  let cl := map (fun t => snd (fst t)) tg in
  let cd := map (fun t => snd t) tg in
  do idx <- first_thin 0 (wi_rthick i);
  do alpha' <- overwrite_root idx alpha;
  do out <- evaluate npi bq (set_inverse b true (b_theta b) cl cd alpha') [(wi_Uhub i, twist_Omega i, wi_pitch i)];
  Ok (fst (fst out)).

(** The object and its twist, lines 557-648. *)
Definition twist_design (o : twist_opts) (i : twist_in) : res blade :=
  let g := wi_args i in
  if wo_inverse o then
    if wo_flag o then (do _ <- construct g; Raise OtherException)
    else
      do b <- inverse_design o i;
      let capped := cap_twist (b_theta b) in
      let theta := if wo_inn_af o then smooth (g_r g) (wi_s_opt i) capped else capped in
      Ok (set_inverse b false theta (b_cl b) (b_cd b) (b_alpha b))
  else
    do b <- construct g;
    Ok (set_inverse b false (map Fin (wi_theta_in i)) (b_cl b) (b_cd b) (b_alpha b)).

(** ccblade.theta * 180.0 / np.pi *)
Definition theta_deg (t : fl) : fl := ndiv (nmul t (Fin 180)) (Fin PI).

(** np.interp (s_opt_theta, s, v), lines 677-679 and 694-695; s is (r - r[0]) / (r[-1] - r[0]), the formula of [r_nd];
    r[-1] <> r[0]. [None] if some value is infinite or NaN: such interpolations are not modelled. *)
Definition to_opt (i : twist_in) (v : list fl) : option (list R) :=
  option_map (fun w => map (fun x => interp x (r_nd (g_r (wi_args i))) w) (wi_s_opt i)) (fvals v).

(** The last part, lines 650-695. [prev] are the values of P, T, Q, M in the outputs vector before the call. *)
Definition twist_finish (i : twist_in) (b : blade) (prev : R * R * R * R) : res twist_out :=
  do o1 <- distributedAeroLoads npi bq b (wi_Uhub i) (twist_Omega i) (wi_pitch i) 0;
  let '(b1, ls) := o1 in
  do o2 <- evaluate npi bq b1 [(wi_Uhub i, twist_Omega i, wi_pitch i)];
  let '(b2, ys, W) := o2 in
  let y := nth 0 ys None in
  let theta := b_theta b2 in
  let P_b := map (fun l => (o_Np l, nopp (o_Tp l))) ls in
  let P_af := map (fun pt : fl * fl * fl => let '(x, y, t) := pt in to_airfoil x y (theta_deg t)) (combine P_b theta) in
  let F := map (fun pt : fl * fl * (fl * sload fl) => let '(x, y, (t, l)) := pt in
                  to_airfoil x y (nadd (nadd (theta_deg t) (o_alpha l)) (Fin (wi_pitch i)))) (combine P_b (combine theta ls)) in
  Ok (mkTwistOut theta (option_map y_CP y) (option_map y_CMb y) (map nan_to_num W)
        (map o_a ls) (map o_ap ls) (map o_alpha ls) (map o_cl ls) (map o_cd ls)
        (map o_Np ls) (map (fun l => nopp (o_Tp l)) ls) (map (fun l => nmul (Fin 0) (o_Np l)) ls)
        (map fst P_af) (map snd P_af) (map (fun _ => Fin 0) P_af) (map fst F) (map snd F)
        (to_opt i (map o_cl ls)) (to_opt i (map o_cd ls)) (to_opt i (map fst F)) (to_opt i (map snd F)) prev).

(** compute, ccblade_component.py:534-696 *)
Definition twist_compute (o : twist_opts) (i : twist_in) (prev : R * R * R * R) : res twist_out :=
  do b <- twist_design o i;
  twist_finish i b prev.
End Twist.
