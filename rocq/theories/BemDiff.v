(** Model of the differentiated routines of ccblade/src/bem.f90 (the Tapenade
    output): INDUCTIONFACTORS_DV, RELATIVEWIND_DV, WINDCOMPONENTS_DV,
    DEFINECURVATURE_DV, DEFINECURVATURE_DV2, THRUSTTORQUE_BV,
    DEFINECURVATURE_BV.

    Exact reals. A Fortran array over directions is a function of the direction
    number [nd]; an array [x(nd, i)] over directions and stations is
    [nat -> nat -> R]. Fortran index minus one throughout. *)
From Coq Require Import Reals ZArith Bool Arith Lra.
From Verif Require Import Prelim Num Bem.
Open Scope R_scope.

Definition dirs := nat -> R.

(** ** RELATIVEWIND_DV, bem.f90:627-707 *)

(** Result: values alpha, w, re and their directional derivatives. *)
Record rw_dv_out := mkRwDv {
  rw_alpha : R; rw_alphad : dirs; rw_w : R; rw_wd : dirs; rw_re : R; rw_red : dirs }.

Definition relativeWind_dv (phi : R) (phid : dirs) (a : R) (ad : dirs) (ap : R) (apd : dirs)
    (vx : R) (vxd : dirs) (vy : R) (vyd : dirs) (pitch : R) (pitchd : dirs)
    (chord : R) (chordd : dirs) (theta : R) (thetad : dirs) (rho mu : R) : rw_dv_out :=
  let alphad := fun nd => phid nd - thetad nd - pitchd nd in
  let alpha := phi - (theta + pitch) in
  let abs0 := if rleb 0 a then a else - a in
  let '(w, wd) :=
    if rltb 10 abs0 then
      let temp := cos phi in
      let temp0 := vy * (ap + 1) / temp in
      (temp0, fun nd => ((ap + 1) * vyd nd + vy * apd nd + temp0 * sin phi * phid nd) / temp)
    else
      let abs1 := if rleb 0 ap then ap else - ap in
      if rltb 10 abs1 then
        let temp0 := sin phi in
        let temp := vx * (- a + 1) / temp0 in
        (temp, fun nd => ((1 - a) * vxd nd - vx * ad nd - temp * cos phi * phid nd) / temp0)
      else
        let arg1 := (vx * (1 - a)) ^ 2 + (vy * (1 + ap)) ^ 2 in
        let temp0 := sqrt arg1 in
        let arg1d := fun nd =>
          2 * vx * (1 - a) * ((1 - a) * vxd nd - vx * ad nd)
          + 2 * vy * (ap + 1) * ((ap + 1) * vyd nd + vy * apd nd) in
        (temp0, fun nd => if reqb arg1 0 then 0 else arg1d nd / (2 * temp0)) in
  let red := fun nd => rho * (chord * wd nd + w * chordd nd) / mu in
  let re := rho * w * chord / mu in
  mkRwDv alpha alphad w wd re red.

(** ** INDUCTIONFACTORS_DV, bem.f90:374-613 *)

(** bem.f90:457-461 and 480-484: derivative of ACOS(arg1). *)
Definition acos_dv (arg1 arg1d : R) : R :=
  if orb (reqb arg1 1) (reqb arg1 (-1)) then 0 else - (arg1d / sqrt (1 - arg1 ^ 2)).

(** Local values with their derivatives. *)
Record locals_dv := mkLocDv {
  v_sphi : R; v_sphid : dirs; v_cphi : R; v_cphid : dirs;
  v_f : R; v_fd : dirs; v_k : R; v_kd : dirs; v_kp : R; v_kpd : dirs }.

(** bem.f90:417-508. *)
Definition bem_locals_dv (o : bemopts) (b : nat) (r : R) (rd : dirs) (chord : R) (chordd : dirs)
    (rhub : R) (rhubd : dirs) (rtip : R) (rtipd : dirs) (phi : R) (phid : dirs)
    (cl : R) (cld : dirs) (cd : R) (cdd : dirs) : locals_dv :=
  let pi := PI in
  let b := INR b in
  let temp := 2 * pi * r in
  let sigma_pd := fun nd => b * (chordd nd - chord * 2 * pi * rd nd / temp) / temp in
  let sphid := fun nd => cos phi * phid nd in
  let cphid := fun nd => - (sin phi * phid nd) in
  let sigma_p := b * (chord / temp) in
  let sphi := sin phi in
  let cphi := cos phi in
  let cnd := fun nd =>
    if negb (useCd o) then cphi * cld nd + cl * cphid nd
    else cphi * cld nd + cl * cphid nd + sphi * cdd nd + cd * sphid nd in
  let ctd := fun nd =>
    if negb (useCd o) then sphi * cld nd + cl * sphid nd
    else sphi * cld nd + cl * sphid nd - cphi * cdd nd - cd * cphid nd in
  let cn := if negb (useCd o) then cl * cphi else cl * cphi + cd * sphi in
  let ct := if negb (useCd o) then cl * sphi else cl * sphi - cd * cphi in
  (* bem.f90:446-468 *)
  let '(ftip, ftipd) :=
    if tipLoss o then
      let temp := 2 * r * sphi in
      let temp0 := (rtip - r) / temp in
      let factortip := b * temp0 in
      let arg1 := exp (- factortip) in
      let factortipd := fun nd =>
        b * (rtipd nd - rd nd - temp0 * (sphi * 2 * rd nd + 2 * r * sphid nd)) / temp in
      let arg1d := fun nd => - (exp (- factortip) * factortipd nd) in
      let result1d := fun nd => acos_dv arg1 (arg1d nd) in
      (2 / pi * acos arg1, fun nd => 2 * result1d nd / pi)
    else (1, fun _ : nat => 0) in
  (* bem.f90:469-491 *)
  let '(fhub, fhubd) :=
    if hubLoss o then
      let temp0 := 2 * rhub * sphi in
      let temp := (r - rhub) / temp0 in
      let factorhub := b * temp in
      let arg1 := exp (- factorhub) in
      let factorhubd := fun nd =>
        b * (rd nd - rhubd nd - temp * (sphi * 2 * rhubd nd + 2 * rhub * sphid nd)) / temp0 in
      let arg1d := fun nd => - (exp (- factorhub) * factorhubd nd) in
      let result1d := fun nd => acos_dv arg1 (arg1d nd) in
      (2 / pi * acos arg1, fun nd => 2 * result1d nd / pi)
    else (1, fun _ : nat => 0) in
  let f := ftip * fhub in
  (* bem.f90:492-508 *)
  let temp0 := 4 * f * (sphi * sphi) in
  let temp := sigma_p * cn / temp0 in
  let fd := fun nd => fhub * ftipd nd + ftip * fhubd nd in
  let kd := fun nd =>
    (cn * sigma_pd nd + sigma_p * cnd nd
     - temp * (sphi ^ 2 * 4 * fd nd + 4 * f * 2 * sphi * sphid nd)) / temp0 in
  let k := temp in
  let temp0 := 4 * f * sphi * cphi in
  let temp := sigma_p * ct / temp0 in
  let kpd := fun nd =>
    (ct * sigma_pd nd + sigma_p * ctd nd
     - temp * (sphi * cphi * 4 * fd nd + 4 * f * (cphi * sphid nd + sphi * cphid nd))) / temp0 in
  let kp := temp in
  mkLocDv sphi sphid cphi cphid f fd k kd kp kpd.

(** bem.f90:509-564: axial induction and its derivative for phi > 0. *)
Definition axial_pos_dv (k : R) (kd : dirs) (f : R) (fd : dirs) : R * dirs :=
  if rleb k (2 / 3) then
    let temp0 := k / (k + 1) in
    (temp0, fun nd => (1 - temp0) * kd nd / (k + 1))
  else
    let g1d := fun nd => 2 * (k * fd nd + f * kd nd) + fd nd in
    let g2d := fun nd => 2 * (k * fd nd + f * kd nd) - (4 / 3 - 2 * f) * fd nd in
    let g3d := fun nd => 2 * (k * fd nd + f * kd nd) + 2 * fd nd in
    let g1 := 2 * f * k - (10 / 9 - f) in
    let g2 := 2 * f * k - (4 / 3 - f) * f in
    let g3 := 2 * f * k - (25 / 9 - 2 * f) in
    let abs0 := if rleb 0 g3 then g3 else - g3 in
    if rltb abs0 (1 / 1000000) then
      let temp0 := sqrt g2 in
      let result1 := temp0 in
      let temp1 := 1 / (2 * result1) in
      let result1d := fun nd => if reqb g2 0 then 0 else g2d nd / (2 * temp0) in
      (1 - temp1, fun nd => temp1 * result1d nd / result1)
    else
      let temp0 := sqrt g2 in
      let result1d := fun nd => if reqb g2 0 then 0 else g2d nd / (2 * temp0) in
      let result1 := temp0 in
      let temp0 := (g1 - result1) / g3 in
      (temp0, fun nd => (g1d nd - result1d nd - temp0 * g3d nd) / g3).

(** bem.f90:565-577: phi <= 0. *)
Definition axial_neg_dv (k : R) (kd : dirs) : R * dirs :=
  if rltb 1 k then
    let temp0 := k / (k - 1) in
    (temp0, fun nd => (1 - temp0) * kd nd / (k - 1))
  else (0, fun _ => 0).

Record ind_dv_out := mkIndDv {
  iv_fzero : R; iv_fzerod : dirs; iv_a : R; iv_ad : dirs; iv_ap : R; iv_apd : dirs }.

(** bem.f90:374-613. *)
Definition inductionFactors_dv (o : bemopts) (b : nat) (r : R) (rd : dirs) (chord : R) (chordd : dirs)
    (rhub : R) (rhubd : dirs) (rtip : R) (rtipd : dirs) (phi : R) (phid : dirs)
    (cl : R) (cld : dirs) (cd : R) (cdd : dirs) (vx : R) (vxd : dirs) (vy : R) (vyd : dirs) : ind_dv_out :=
  let L := bem_locals_dv o b r rd chord chordd rhub rhubd rtip rtipd phi phid cl cld cd cdd in
  let sphi := v_sphi L in let sphid := v_sphid L in
  let cphi := v_cphi L in let cphid := v_cphid L in
  let k := v_k L in let kd := v_kd L in
  let kp := v_kp L in let kpd := v_kpd L in
  let '(a, ad) := if rltb 0 phi then axial_pos_dv k kd (v_f L) (v_fd L) else axial_neg_dv k kd in
  (* bem.f90:578-589 *)
  let temp0 := kp / (- kp + 1) in
  let apd := fun nd => (temp0 + 1) * kpd nd / (1 - kp) in
  let ap := temp0 in
  let '(ap, kp, apd, kpd) :=
    if negb (wakerotation o) then (0, 0, (fun _ : nat => 0), (fun _ : nat => 0)) else (ap, kp, apd, kpd) in
  (* bem.f90:590-612 *)
  let lambda_rd := fun nd => (vyd nd - vy * vxd nd / vx) / vx in
  let lambda_r := vy / vx in
  let '(fzero, fzerod) :=
    if rltb 0 phi then
      let temp0 := sphi / (- a + 1) in
      let temp := cphi / lambda_r in
      (temp0 - (1 - kp) * temp,
       fun nd => (sphid nd + temp0 * ad nd) / (1 - a)
                 - (1 - kp) * (cphid nd - temp * lambda_rd nd) / lambda_r + temp * kpd nd)
    else
      let temp0 := cphi / lambda_r in
      (sphi * (1 - k) - (1 - kp) * temp0,
       fun nd => (1 - k) * sphid nd - sphi * kd nd
                 - (1 - kp) * (cphid nd - temp0 * lambda_rd nd) / lambda_r + temp0 * kpd nd) in
  mkIndDv fzero fzerod a ad ap apd.

(** ** DEFINECURVATURE_DV and _DV2, bem.f90:844-941, 1223-1335 *)

(** Derivatives of x_az, z_az: bem.f90:885-898, 908-909 (1265-1278, 1288-1289). *)
Definition curv_xd (r precurve : arr) (precone : R) (rd precurved : nat -> arr) (preconed : dirs)
    (nd : nat) : arr :=
  fun i => cos precone * precurved nd i
           - (precurve i * sin precone + r i * cos precone) * preconed nd - sin precone * rd nd i.
Definition curv_zd (r precurve : arr) (precone : R) (rd precurved : nat -> arr) (preconed : dirs)
    (nd : nat) : arr :=
  fun i => cos precone * rd nd i
           - (r i * sin precone - precurve i * cos precone) * preconed nd + sin precone * precurved nd i.

(** bem.f90:910-930: [arg2*arg1d/(arg1**2+arg2**2) - arg1*arg2d/(...)],
    with arg1 = -(x(j+1)-x(j)), arg2 = z(j+1)-z(j), arg1d = xd(j)-xd(j+1). *)
Definition seg_coned (x z xd zd : arr) (j : nat) : R :=
  let arg1 := - (x (j + 1)%nat - x j) in
  let arg2 := z (j + 1)%nat - z j in
  let arg1d := xd j - xd (j + 1)%nat in
  let arg2d := zd (j + 1)%nat - zd j in
  arg2 * arg1d / (arg1 ^ 2 + arg2 ^ 2) - arg1 * arg2d / (arg1 ^ 2 + arg2 ^ 2).

(** bem.f90:899-932: cone(1), cone(2:n-1), cone(n). *)
Definition curv_coned (n : nat) (x z xd zd : arr) : arr :=
  fun i =>
    if Nat.eqb i 0 then seg_coned x z xd zd 0
    else if Nat.eqb i (n - 1) then seg_coned x z xd zd (n - 2)
    else 1 / 2 * (seg_coned x z xd zd (i - 1) + seg_coned x z xd zd i).

(** bem.f90:1313-1334: derivative of the path length. *)
Fixpoint curv_sd (r precurve presweep : arr) (rd precurved presweepd : arr) (i : nat) : R :=
  match i with
  | O => 0
  | S j =>
      let arg1 := (precurve (S j) - precurve j) ^ 2 + (presweep (S j) - presweep j) ^ 2
                  + (r (S j) - r j) ^ 2 in
      let temp0 := sqrt arg1 in
      let arg1d := 2 * (precurve (S j) - precurve j) * (precurved (S j) - precurved j)
                   + 2 * (presweep (S j) - presweep j) * (presweepd (S j) - presweepd j)
                   + 2 * (r (S j) - r j) * (rd (S j) - rd j) in
      let result1d := if reqb arg1 0 then 0 else arg1d / (2 * temp0) in
      curv_sd r precurve presweep rd precurved presweepd j + result1d
  end.

Record curv_dv_out := mkCurvDv {
  cv_x : arr; cv_xd : nat -> arr; cv_y : arr; cv_yd : nat -> arr; cv_z : arr; cv_zd : nat -> arr;
  cv_cone : arr; cv_coned : nat -> arr; cv_s : arr }.

(** bem.f90:844-941 (n >= 2). *)
Definition defineCurvature_dv (n : nat) (r : arr) (rd : nat -> arr) (precurve : arr) (precurved : nat -> arr)
    (presweep : arr) (presweepd : nat -> arr) (precone : R) (preconed : dirs) : curv_dv_out :=
  let x := fun i => precurve i * cos precone - r i * sin precone in
  let z := fun i => r i * cos precone + precurve i * sin precone in
  let xd := curv_xd r precurve precone rd precurved preconed in
  let zd := curv_zd r precurve precone rd precurved preconed in
  mkCurvDv x xd presweep presweepd z zd (curv_cone n x z) (fun nd => curv_coned n x z (xd nd) (zd nd))
    (curv_s r precurve presweep).

(** bem.f90:1223-1335: as DEFINECURVATURE_DV, with sd. *)
Definition defineCurvature_dv2 (n : nat) (r : arr) (rd : nat -> arr) (precurve : arr) (precurved : nat -> arr)
    (presweep : arr) (presweepd : nat -> arr) (precone : R) (preconed : dirs) : curv_dv_out * (nat -> arr) :=
  (defineCurvature_dv n r rd precurve precurved presweep presweepd precone preconed,
   fun nd => curv_sd r precurve presweep (rd nd) (precurved nd) (presweepd nd)).

(** ** WINDCOMPONENTS_DV, bem.f90:721-839 *)

(** bem.f90:803-812, the WHERE construct: derivative of pwx1**shearexp.
    [shearexp .NE. INT(shearexp)]: not an integer. [rpow] is described in Bem.v. *)
Definition pow_dv (pwx1 pwx1d shearexp shearexpd : R) : R :=
  if andb (rleb pwx1 0) (orb (reqb shearexp 0) (negb (reqb shearexp (IZR (Int_part shearexp))))) then 0
  else if rleb pwx1 0 then shearexp * rpow pwx1 (shearexp - 1) * pwx1d
  else shearexp * rpow pwx1 (shearexp - 1) * pwx1d + rpow pwx1 shearexp * ln pwx1 * shearexpd.

Record wind_dv_out := mkWindDv { wv_vx : arr; wv_vxd : nat -> arr; wv_vy : arr; wv_vyd : nat -> arr }.

Definition windComponents_dv (n : nat) (r : arr) (rd : nat -> arr) (precurve : arr) (precurved : nat -> arr)
    (presweep : arr) (presweepd : nat -> arr) (precone : R) (preconed : dirs) (yaw : R) (yawd : dirs)
    (tilt : R) (tiltd : dirs) (azimuth : R) (azimuthd : dirs) (uinf : R) (uinfd : dirs)
    (omegarpm : R) (omegarpmd : dirs) (hubht : R) (hubhtd : dirs) (shearexp : R) (shearexpd : dirs)
  : wind_dv_out :=
  let st := sin tilt in let ct := cos tilt in
  let sa := sin azimuth in let ca := cos azimuth in
  let pi := PI in
  let omega := omegarpm * pi / 30 in
  let cv := defineCurvature_dv n r rd precurve precurved presweep presweepd precone preconed in
  let x_az := cv_x cv in let x_azd := cv_xd cv in
  let y_az := cv_y cv in let y_azd := cv_yd cv in
  let z_az := cv_z cv in let z_azd := cv_zd cv in
  let cone := cv_cone cv in let coned := cv_coned cv in
  let sc := fun i => sin (cone i) in
  let temp := fun i => y_az i * sa + z_az i * ca in
  let heightfromhub := fun i => temp i * ct - x_az i * st in
  let syd := fun nd => cos yaw * yawd nd in
  let cyd := fun nd => - (sin yaw * yawd nd) in
  let std := fun nd => cos tilt * tiltd nd in
  let ctd := fun nd => - (sin tilt * tiltd nd) in
  let sad := fun nd => cos azimuth * azimuthd nd in
  let cad := fun nd => - (sin azimuth * azimuthd nd) in
  let omegad := fun nd => pi * omegarpmd nd / 30 in
  let scd := fun nd i => cos (cone i) * coned nd i in
  let ccd := fun nd i => - (sin (cone i) * coned nd i) in
  let heightfromhubd := fun nd i =>
    ct * (sa * y_azd nd i + y_az i * sad nd + ca * z_azd nd i + z_az i * cad nd) + temp i * ctd nd
    - st * x_azd nd i - x_az i * std nd in
  let pwx1d := fun nd i => (heightfromhubd nd i - heightfromhub i * hubhtd nd / hubht) / hubht in
  let vrot_xd := fun nd i =>
    - (sc i * (y_az i * omegad nd + omega * y_azd nd i) + omega * y_az i * scd nd i) in
  let vrot_yd := fun nd i => z_az i * omegad nd + omega * z_azd nd i in
  let sy := sin yaw in let cy := cos yaw in
  let cc := fun i => cos (cone i) in
  let pwx1 := fun i => 1 + heightfromhub i / hubht in
  let pwr1 := fun i => rpow (pwx1 i) shearexp in
  let pwr1d := fun nd i => pow_dv (pwx1 i) (pwx1d nd i) shearexp (shearexpd nd) in
  let vd := fun nd i => pwr1 i * uinfd nd + uinf * pwr1d nd i in
  let v := fun i => uinf * pwr1 i in
  let temp0 := cy * st * ca + sy * sa in
  let temp := fun i => temp0 * sc i + cy * ct * cc i in
  let vwind_xd := fun nd i =>
    temp i * vd nd i
    + v i * (sc i * (ca * (st * cyd nd + cy * std nd) + cy * st * cad nd + sa * syd nd + sy * sad nd)
             + temp0 * scd nd i + cc i * (ct * cyd nd + cy * ctd nd) + cy * ct * ccd nd i) in
  let vxd := fun nd i => vwind_xd nd i + vrot_xd nd i in
  let vwind_x := fun i => v i * temp i in
  let temp0 := cy * st * sa - sy * ca in
  let vwind_yd := fun nd i =>
    temp0 * vd nd i
    + v i * (sa * (st * cyd nd + cy * std nd) + cy * st * sad nd - ca * syd nd - sy * cad nd) in
  let vyd := fun nd i => vwind_yd nd i + vrot_yd nd i in
  let vwind_y := fun i => v i * temp0 in
  let vrot_x := fun i => - (omega * y_az i * sc i) in
  let vrot_y := fun i => omega * z_az i in
  mkWindDv (fun i => vwind_x i + vrot_x i) vxd (fun i => vwind_y i + vrot_y i) vyd.

(** ** THRUSTTORQUE_BV and DEFINECURVATURE_BV, bem.f90:955-1091, 1098-1212

    Reverse mode. The routines loop over directions; the loop bodies of
    different directions do not interact, so one direction is modelled, with
    scalar seeds tb, yb, zb, qb, mb; [thrustTorque_bv] then maps over seeds. *)

(** [a(lo+1 : lo+len) = a(lo+1 : lo+len) + t(1:len)]. *)
Definition addsl (lo len : nat) (a t : arr) : arr :=
  fun i => if andb (Nat.leb lo i) (Nat.ltb i (lo + len)) then a i + t (i - lo)%nat else a i.
(** [a(j) = a(j) + v] and [a(j) = v]. *)
Definition addat (j : nat) (a : arr) (v : R) : arr := fun i => if Nat.eqb i j then a i + v else a i.
Definition setat (j : nat) (a : arr) (v : R) : arr := fun i => if Nat.eqb i j then v else a i.
Fixpoint asum (n : nat) (f : arr) : R := match n with O => 0 | S m => asum m f + f m end.

(** Adjoint arrays of the integration loop. *)
Record tq_state := mkTq { q_fm : arr; q_tq : arr; q_vf : arr; q_sf : arr; q_th : arr; q_s : arr }.

(** Body of the loop at i = j+1: bem.f90:1022-1047. *)
Definition tq_step (s fm tq vf sf th : arr) (tb yb zb qb mb : R) (st : tq_state) (j : nat) : tq_state :=
  let ds := s (S j) - s j in
  let dsb := (fm j + fm (S j)) * (1 / 2) * mb + (tq j + tq (S j)) * (1 / 2) * qb
             + (vf j + vf (S j)) * (1 / 2) * zb + (sf j + sf (S j)) * (1 / 2) * yb
             + (th j + th (S j)) * (1 / 2) * tb in
  let both := fun (a : arr) v => addat (S j) (addat j a v) v in
  mkTq (both (q_fm st) (ds * (1 / 2) * mb)) (both (q_tq st) (ds * (1 / 2) * qb))
       (both (q_vf st) (ds * (1 / 2) * zb)) (both (q_sf st) (ds * (1 / 2) * yb))
       (both (q_th st) (ds * (1 / 2) * tb)) (addat j (addat (S j) (q_s st) dsb) (- dsb)).

(** [DO i = m, 1, -1]. *)
Fixpoint down (St : Type) (step : St -> nat -> St) (m : nat) (st : St) : St :=
  match m with O => st | S j => down St step j (step st j) end.

(** Path-length adjoints: arrays sb, precurveb, presweepb, rb. *)
Record sb_state := mkSb { b_s : arr; b_pc : arr; b_ps : arr; b_r : arr }.

(** Body of the loop at i = j+2 (station index j+1): bem.f90:1147-1166. *)
Definition sb_step (r precurve presweep : arr) (st : sb_state) (j : nat) : sb_state :=
  let arg := (precurve (S j) - precurve j) ^ 2 + (presweep (S j) - presweep j) ^ 2 + (r (S j) - r j) ^ 2 in
  let tempb8 := if reqb arg 0 then 0 else b_s st (S j) / (2 * sqrt arg) in
  let tempb9 := 2 * (precurve (S j) - precurve j) * tempb8 in
  let tempb10 := 2 * (presweep (S j) - presweep j) * tempb8 in
  let tempb11 := 2 * (r (S j) - r j) * tempb8 in
  mkSb (setat (S j) (addat j (b_s st) (b_s st (S j))) 0)
       (addat j (addat (S j) (b_pc st) tempb9) (- tempb9))
       (addat j (addat (S j) (b_ps st) tempb10) (- tempb10))
       (addat j (addat (S j) (b_r st) tempb11) (- tempb11)).

Record curv_bv_out := mkCurvBv { cb_r : arr; cb_pc : arr; cb_ps : arr; cb_precone : R }.

(** bem.f90:1098-1212. [tempb1] is declared with n entries but assigned an array
    of n-2 (bem.f90:1130, 1182); only its first n-2 entries are used below. *)
Definition defineCurvature_bv (n : nat) (r precurve presweep : arr) (precone : R)
    (z_azb coneb sb : arr) : curv_bv_out :=
  let x_az := fun i => - (r i * sin precone) + precurve i * cos precone in
  let z_az := fun i => r i * cos precone + precurve i * sin precone in
  let st := down sb_state (sb_step r precurve presweep) (n - 1)
              (mkSb sb (fun _ => 0) (fun _ => 0) (fun _ => 0)) in
  let temp0 := fun j : nat => z_az (j + 1)%nat - z_az j in
  let temp := fun j : nat => x_az j - x_az (j + 1)%nat in
  let tempb := (z_az (n - 1)%nat - z_az (n - 2)%nat) * coneb (n - 1)%nat
               / ((x_az (n - 2)%nat - x_az (n - 1)%nat) ^ 2 + (z_az (n - 1)%nat - z_az (n - 2)%nat) ^ 2) in
  let tempb0 := - ((x_az (n - 2)%nat - x_az (n - 1)%nat) * coneb (n - 1)%nat
               / ((x_az (n - 2)%nat - x_az (n - 1)%nat) ^ 2 + (z_az (n - 1)%nat - z_az (n - 2)%nat) ^ 2)) in
  let x_azb := fun _ : nat => 0 in
  let x_azb := addat (n - 2) x_azb tempb in
  let x_azb := addat (n - 1) x_azb (- tempb) in
  let z_azb := addat (n - 1) z_azb tempb0 in
  let z_azb := addat (n - 2) z_azb (- tempb0) in
  let tempb1 := fun j => 1 / 2 * coneb (j + 1)%nat in
  let tempb2 := fun j => temp0 j * tempb1 j / (temp j ^ 2 + temp0 j ^ 2) in
  let tempb3 := fun j => - (temp j * tempb1 j / (temp j ^ 2 + temp0 j ^ 2)) in
  let tempb4 := fun j => (z_az (j + 2)%nat - z_az (j + 1)%nat) * tempb1 j
      / ((x_az (j + 1)%nat - x_az (j + 2)%nat) ^ 2 + (z_az (j + 2)%nat - z_az (j + 1)%nat) ^ 2) in
  let tempb5 := fun j => - ((x_az (j + 1)%nat - x_az (j + 2)%nat) * tempb1 j
      / ((x_az (j + 1)%nat - x_az (j + 2)%nat) ^ 2 + (z_az (j + 2)%nat - z_az (j + 1)%nat) ^ 2)) in
  let x_azb := addsl 0 (n - 2) x_azb tempb2 in
  let x_azb := addsl 1 (n - 2) x_azb (fun j => tempb4 j - tempb2 j) in
  let z_azb := addsl 1 (n - 2) z_azb (fun j => tempb3 j - tempb5 j) in
  let z_azb := addsl 0 (n - 2) z_azb (fun j => - tempb3 j) in
  let x_azb := addsl 2 (n - 2) x_azb (fun j => - tempb4 j) in
  let z_azb := addsl 2 (n - 2) z_azb tempb5 in
  let tempb6 := (z_az 1%nat - z_az 0%nat) * coneb 0%nat
               / ((x_az 0%nat - x_az 1%nat) ^ 2 + (z_az 1%nat - z_az 0%nat) ^ 2) in
  let tempb7 := - ((x_az 0%nat - x_az 1%nat) * coneb 0%nat
               / ((x_az 0%nat - x_az 1%nat) ^ 2 + (z_az 1%nat - z_az 0%nat) ^ 2)) in
  let x_azb := addat 0 x_azb tempb6 in
  let x_azb := addat 1 x_azb (- tempb6) in
  let z_azb := addat 1 z_azb tempb7 in
  let z_azb := addat 0 z_azb (- tempb7) in
  mkCurvBv
    (fun i => b_r st i + cos precone * z_azb i - sin precone * x_azb i)
    (fun i => b_pc st i + cos precone * x_azb i + sin precone * z_azb i)
    (b_ps st)
    (cos precone * asum n (fun i => precurve i * z_azb i) - sin precone * asum n (fun i => precurve i * x_azb i)
     - cos precone * asum n (fun i => r i * x_azb i) - sin precone * asum n (fun i => r i * z_azb i)).

Record tt_bv_out := mkTtBv {
  tb_np : arr; tb_tp : arr; tb_r : arr; tb_pc : arr; tb_ps : arr;
  tb_precone : R; tb_rhub : R; tb_rtip : R; tb_pctip : R; tb_pstip : R }.

(** bem.f90:955-1091, one direction. *)
Definition thrustTorque_bv1 (n : nat) (np tp r precurve presweep : arr)
    (precone rhub rtip precurvetip presweeptip : R) (tb yb zb qb mb : R) : tt_bv_out :=
  let rfull := pad n rhub r rtip in
  let curvefull := pad n 0 precurve precurvetip in
  let sweepfull := pad n 0 presweep presweeptip in
  let npfull := pad n 0 np 0 in
  let tpfull := pad n 0 tp 0 in
  let '(x_az, y_az, z_az, cone, s) := defineCurvature (n + 2) rfull curvefull sweepfull precone in
  let thrust := fun i => npfull i * cos (cone i) in
  let side_force := tpfull in
  let vert_force := fun i => npfull i * sin (cone i) in
  let torque := fun i => tpfull i * z_az i in
  let flap_moment := fun i => npfull i * z_az i in
  let zero := fun _ : nat => 0 in
  let st := down tq_state (tq_step s flap_moment torque vert_force side_force thrust tb yb zb qb mb)
              (n + 1) (mkTq zero zero zero zero zero zero) in
  let npfullb := fun i => z_az i * q_fm st i + sin (cone i) * q_vf st i + cos (cone i) * q_th st i in
  let z_azb := fun i => npfull i * q_fm st i + tpfull i * q_tq st i in
  let tpfullb := fun i => z_az i * q_tq st i + q_sf st i in
  let coneb := fun i => cos (cone i) * npfull i * q_vf st i - sin (cone i) * npfull i * q_th st i in
  let cb := defineCurvature_bv (n + 2) rfull curvefull sweepfull precone z_azb coneb (q_s st) in
  mkTtBv (fun i => npfullb (i + 1)%nat) (fun i => tpfullb (i + 1)%nat)
    (fun i => cb_r cb (i + 1)%nat) (fun i => cb_pc cb (i + 1)%nat) (fun i => cb_ps cb (i + 1)%nat)
    (cb_precone cb) (cb_r cb 0%nat) (cb_r cb (n + 1)%nat) (cb_pc cb (n + 1)%nat) (cb_ps cb (n + 1)%nat).

Definition thrustTorque_bv (n : nat) (np tp r precurve presweep : arr)
    (precone rhub rtip precurvetip presweeptip : R) (tb yb zb qb mb : dirs) (nd : nat) : tt_bv_out :=
  thrustTorque_bv1 n np tp r precurve presweep precone rhub rtip precurvetip presweeptip
    (tb nd) (yb nd) (zb nd) (qb nd) (mb nd).
