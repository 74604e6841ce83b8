(** Model of airfoilprep.py: Polar.correction3D (102-180), Polar.extrapolate (182-326) with its private
    methods __Viterna (328-338), __CMCoeff (340-359) and __getCM (361-398), and the two methods of Airfoil that
    map them over the polars (668-704, 706-734).

    Simplifications: exact reals; the arrays of one polar are assumed to have one length (the code would fail in
    numpy broadcasting otherwise), entries beyond the end read as 0; numpy divisions by zero give inf/nan with a
    warning, here Coq's total division, so theorems about values assume the divisors are not zero. *)
From Coq Require Import Reals List Bool ZArith Lra Lia.
From Verif Require Import Prelim Interp Polar.
Import ListNotations.
Open Scope R_scope.

(** * Polar.correction3D *)
Section Correction.
(** numpy.polyfit (x, y, 1): slope and intercept of the fitted line, or an exception (no points). *)
Variable polyfit : list R -> list R -> res (R * R).

(** Du-Selig factor, airfoilprep.py:156-160; x ** y for a positive base. *)
Definition selig (m chord_over_r expon : R) : R :=
  1 / m * (16 / 10 * chord_over_r / (1267 / 10000) * (1 - Rpower chord_over_r expon) / (1 + Rpower chord_over_r expon) - 1).

(** The adjustment above alpha_max_corr, airfoilprep.py:162-163. *)
Definition adj (alpha_max_corr alpha : R) : R :=
  if rleb alpha alpha_max_corr then 1 else ((PI / 2 - alpha) / (PI / 2 - alpha_max_corr)) ^ 2.

(** Polar.correction3D, airfoilprep.py:102-180. d / lam / r_over_R raises ZeroDivisionError for Python floats
    tsr = 0 or r_over_R = 0. *)
Definition correction3D (p : polar) (r_over_R chord_over_r tsr alpha_max_corr alpha_linear_min alpha_linear_max : R)
  : res polar :=
  let alpha := map radians (p_alpha p) in
  let amc := radians alpha_max_corr in
  let almin := radians alpha_linear_min in
  let almax := radians alpha_linear_max in
  if reqb tsr 0 then Raise ZeroDivisionError else
  let lam := tsr / sqrt (1 + tsr ^ 2) in
  if reqb r_over_R 0 then Raise ZeroDivisionError else
  let expon := 1 / lam / r_over_R in
  let expon_d := 1 / lam / r_over_R / 2 in
  let lin := filter (fun x => rleb almin (fst x) && rleb (fst x) almax) (combine alpha (p_cl p)) in
  do mp <- polyfit (map fst lin) (map snd lin);
  let m := fst mp in
  let alpha0 := - snd mp / m in
  let fcl := selig m chord_over_r expon in
  let fcd := selig m chord_over_r expon_d in
  let cl_3d := map2 (fun a cl => cl + fcl * (m * (a - alpha0) - cl) * adj amc a) alpha (p_cl p) in
  do cd0 <- np_interp [0] alpha (p_cd p);
  let cd_3d := map (fun cd => cd + fcd * (cd - nth 0 cd0 0)) (p_cd p) in
  Ok (mkPolar (p_Re p) (map degrees alpha) cl_3d cd_3d (p_cm p)).

(** Airfoil.correction3D, airfoilprep.py:668-704. *)
Definition airfoil_correction3D (af : airfoil) (r_over_R chord_over_r tsr amc almin almax : R) : res airfoil :=
  do ps <- mapM (fun p => correction3D p r_over_R chord_over_r tsr amc almin almax) af;
  mk_airfoil ps.
End Correction.

(** * Polar.extrapolate *)

(** numpy.linspace (a, b, n). *)
Definition linspace (a b : R) (n : nat) : list R :=
  map (fun k => a + INR k * ((b - a) / INR (n - 1))) (seq 0 n).

(** l[1:] and l[1:-2]. *)
Definition slice_1_m2 (l : list R) : list R := firstn (length l - 3) (tl l).

(** numpy.floor, numpy.ceil, int() (truncation). *)
Definition rfloor (x : R) : R := IZR (Int_part x).
Definition rceil (x : R) : R := - rfloor (- x).
Definition trunc (x : R) : Z := if rleb 0 x then Int_part x else (- Int_part (- x))%Z.

(** Polar.__Viterna for one angle, airfoilprep.py:328-338. *)
Definition viterna_cl (cdmax A adj alpha : R) : R :=
  let a := Rmax alpha (1 / 10000) in
  (cdmax / 2 * sin (2 * a) + A * cos a ^ 2 / sin a) * adj.
Definition viterna_cd (cdmax B alpha : R) : R :=
  let a := Rmax alpha (1 / 10000) in
  cdmax * sin a ^ 2 + B * cos a.

(** cm0 of Polar.__CMCoeff: the moment at the first zero crossing of lift with |alpha| < 20 (airfoilprep.py:345-354);
    extrapolation from the first two rows otherwise (IndexError with a single row). *)
Fixpoint cm0_scan (alpha cl cm : list R) : option R :=
  match alpha, cl, cm with
  | a :: alpha', c0 :: ((c1 :: _) as cl'), m0 :: ((m1 :: _) as cm') =>
      if rltb (Rabs a) 20 && rleb c0 0 && rleb 0 c1
      then Some (m0 + - c0 / (c1 - c0) * (m1 - m0))
      else cm0_scan alpha' cl' cm'
  | _, _, _ => None
  end.
Definition cm0 (p : polar) : res R :=
  match cm0_scan (p_alpha p) (p_cl p) (p_cm p) with
  | Some c => Ok c
  | None =>
      match p_cl p, p_cm p with
      | c0 :: c1 :: _, m0 :: m1 :: _ => Ok (m0 + - c0 / (c1 - c0) * (m1 - m0))
      | _, _ => Raise IndexError
      end
  end.

(** Polar.__CMCoeff, airfoilprep.py:355-359. *)
Definition cmCoef (alpha_high cl_high cd_high cm_high cm0 : R) : R :=
  let XM := (- cm_high + cm0) / (cl_high * cos alpha_high + cd_high * sin alpha_high) in
  (XM - 1 / 4) / tan (alpha_high - PI / 2).

(** Polar.__getCM for the angle a (degrees) with its lift and drag, airfoilprep.py:361-398; [None] inside the data. *)
Definition getCM (cmCoef cm0 a cl cd low high : R) : option R :=
  if rleb low a && rleb a high then None else
  Some (
    if rltb (-165) a && rltb a 165 then
      if rltb (Rabs a) (1 / 100) then cm0
      else if rltb 0 a then
        let x := cmCoef * tan (radians a - PI / 2) + 1 / 4 in
        cm0 - x * (cl * cos (radians a) + cd * sin (radians a))
      else
        let x := cmCoef * tan (- radians a - PI / 2) + 1 / 4 in
        - (cm0 - x * (- cl * cos (- radians a) + cd * sin (- radians a)))
    else if reqb a 165 then - 4 / 10
    else if reqb a 170 then - 5 / 10
    else if reqb a 175 then - 25 / 100
    else if reqb a 180 then 0
    else if reqb a (-165) then 35 / 100
    else if reqb a (-170) then 4 / 10
    else if reqb a (-175) then 2 / 10
    else if reqb a (-180) then 0
    else 0).

(** The angles at which the moment is set up, airfoilprep.py:302-309. The number of points of the second
    linspace is never negative for alpha[-1] <= 90. *)
Definition cm_alpha1 (a0 : R) : list R :=
  let c := rfloor (a0 / 10) * 10 in
  linspace (-180) c (Z.abs_nat (trunc ((- 180 - c) / 10 - 1))).
Definition cm_alpha2 (an : R) : list R :=
  let c := rceil (an / 10) * 10 in
  linspace c 180 (Z.to_nat (trunc ((180 - c) / 10 + 1))).

(** The extrapolated moment, airfoilprep.py:301-325, on the angles [deg] (degrees) with lift [cl], drag [cd]. *)
Definition cm_extrapolated (p : polar) (alpha_high cl_high cd_high cm_high : R) (deg cl cd : list R) : res (list R) :=
  let a0 := nth 0 (p_alpha p) 0 in
  let an := last (p_alpha p) 0 in
  let alpha_cm1 := cm_alpha1 a0 in
  let alpha_cm2 := cm_alpha2 an in
  let alpha_cm := alpha_cm1 ++ p_alpha p ++ alpha_cm2 in
  let cm_ext := map (fun _ => 0) alpha_cm1 ++ p_cm p ++ map (fun _ => 0) alpha_cm2 in
  do cm_ext <-
    (if existsb (fun c => negb (reqb c 0)) (p_cm p) then
       do c0 <- cm0 p;
       let cc := cmCoef alpha_high cl_high cd_high cm_high c0 in
       do cl_cm <- np_interp alpha_cm deg cl;
       do cd_cm <- np_interp alpha_cm deg cd;
       Ok (map2 (fun x acld =>
                   match getCM cc c0 (fst acld) (fst (snd acld)) (snd (snd acld)) a0 an with
                   | Some c => c
                   | None => x
                   end) cm_ext (combine alpha_cm (combine cl_cm cd_cm)))
     else Ok cm_ext);
  np_interp deg alpha_cm cm_ext.

(** Polar.extrapolate, airfoilprep.py:182-326, [nalpha] >= 0. [AR] is [None] by default. *)
Definition extrapolate (p : polar) (cdmax : R) (AR : option R) (cdmin : R) (nalpha : nat) : res polar :=
  if rltb cdmin 0 then Raise OtherException else
  let cl_adj := 7 / 10 in
  let cdmax := match AR with Some ar => 111 / 100 + 18 / 1000 * ar | None => cdmax end in
  do mcd <- amax (p_cd p);
  let cdmax := Rmax mcd cdmax in
  match p_alpha p with
  | [] => Raise IndexError
  | _ =>
  let alpha_high := radians (last (p_alpha p) 0) in
  let cl_high := last (p_cl p) 0 in
  let cd_high := last (p_cd p) 0 in
  let cm_high := last (p_cm p) 0 in
  let alpha_low := radians (nth 0 (p_alpha p) 0) in
  let cl_low := nth 0 (p_cl p) 0 in
  let cd_low := nth 0 (p_cd p) 0 in
  if rltb (PI / 2) alpha_high then Raise OtherException else
  if rltb alpha_low (- PI / 2) then Raise OtherException else
  let sa := sin alpha_high in
  let ca := cos alpha_high in
  let A := (cl_high - cdmax * sa * ca) * sa / ca ^ 2 in
  let B := (cd_high - cdmax * sa * sa) / ca in
  (* alpha_high <-> 90 *)
  let alpha1 := tl (linspace alpha_high (PI / 2) nalpha) in
  let cl1 := map (viterna_cl cdmax A 1) alpha1 in
  let cd1 := map (viterna_cd cdmax B) alpha1 in
  (* 90 <-> 180-alpha_high *)
  let alpha2 := tl (linspace (PI / 2) (PI - alpha_high) nalpha) in
  let cl2 := map (fun a => viterna_cl cdmax A (- cl_adj) (PI - a)) alpha2 in
  let cd2 := map (fun a => viterna_cd cdmax B (PI - a)) alpha2 in
  (* 180-alpha_high <-> 180 *)
  let alpha3 := tl (linspace (PI - alpha_high) PI nalpha) in
  let cl3 := map (fun a => (a - PI) / alpha_high * cl_high * cl_adj) alpha3 in
  let cd3 := map (fun a => viterna_cd cdmax B (PI - a)) alpha3 in
  (* -alpha_high <-> alpha_low *)
  let below := rleb alpha_low (- alpha_high) in
  let alpha4 := if below then [] else slice_1_m2 (linspace (- alpha_high) alpha_low nalpha) in
  let cl4 := map (fun a => - cl_high * cl_adj + (a + alpha_high) / (alpha_low + alpha_high) * (cl_low + cl_high * cl_adj)) alpha4 in
  let cd4 := map (fun a => cd_low + (a - alpha_low) / (- alpha_high - alpha_low) * (cd_high - cd_low)) alpha4 in
  let alpha5max := if below then alpha_low else - alpha_high in
  (* -90 <-> -alpha_high *)
  let alpha5 := tl (linspace (- PI / 2) alpha5max nalpha) in
  let cl5 := map (fun a => viterna_cl cdmax A (- cl_adj) (- a)) alpha5 in
  let cd5 := map (fun a => viterna_cd cdmax B (- a)) alpha5 in
  (* -180+alpha_high <-> -90 *)
  let alpha6 := tl (linspace (- PI + alpha_high) (- PI / 2) nalpha) in
  let cl6 := map (fun a => viterna_cl cdmax A cl_adj (a + PI)) alpha6 in
  let cd6 := map (fun a => viterna_cd cdmax B (a + PI)) alpha6 in
  (* -180 <-> -180 + alpha_high *)
  let alpha7 := linspace (- PI) (- PI + alpha_high) nalpha in
  let cl7 := map (fun a => (a + PI) / alpha_high * cl_high * cl_adj) alpha7 in
  let cd7 := map (fun a => viterna_cd cdmax B (a + PI)) alpha7 in
  let alpha := alpha7 ++ alpha6 ++ alpha5 ++ alpha4 ++ map radians (p_alpha p) ++ alpha1 ++ alpha2 ++ alpha3 in
  let cl := cl7 ++ cl6 ++ cl5 ++ cl4 ++ p_cl p ++ cl1 ++ cl2 ++ cl3 in
  let cd := map (fun c => Rmax c cdmin) (cd7 ++ cd6 ++ cd5 ++ cd4 ++ p_cd p ++ cd1 ++ cd2 ++ cd3) in
  let deg := map degrees alpha in
  do cm <- cm_extrapolated p alpha_high cl_high cd_high cm_high deg cl cd;
  Ok (mkPolar (p_Re p) deg cl cd cm)
  end.

(** Airfoil.extrapolate, airfoilprep.py:706-734: nalpha keeps its default 15. *)
Definition airfoil_extrapolate (af : airfoil) (cdmax : R) (AR : option R) (cdmin : R) : res airfoil :=
  do ps <- mapM (fun p => extrapolate p cdmax AR cdmin 15) af;
  mk_airfoil ps.
