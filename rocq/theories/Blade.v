(** Model of the class CCBlade (ccblade/ccblade.py:462-1488) with
    derivatives=False; the derivative part is in BladeDiff.v. *)
From Coq Require Import Reals Bool Arith List Lra.
From Verif Require Import Prelim Num Bem Interp.
Import ListNotations.
Open Scope R_scope.

(** ** One blade station, over any carrier of numbers *)
Section Station.
Context {A : Type} `{Arith A}.
Local Open Scope num_scope.

(** CCAirfoil.evaluate (alpha, Re) = (cl, cd): ccblade.py:177-206, any function. *)
Definition airfoil := A -> A -> A * A.

(** The attributes of the object used at a station: self.Rhub, self.Rtip, self.B,
    self.rho, self.mu, self.bemoptions, self.iterRe (ccblade.py:559-570) and
    self.pitch (ccblade.py:927). *)
Record rotor := mkRotor {
  rt_Rhub : A; rt_Rtip : A; rt_B : nat; rt_rho : A; rt_mu : A;
  rt_opts : bemopts; rt_iterRe : nat; rt_pitch : A }.

(** The arguments (r, chord, theta, af, Vx, Vy) of a station: ccblade.py:969. *)
Record sect := mkSect { s_r : A; s_chord : A; s_theta : A; s_af : airfoil; s_Vx : A; s_Vy : A }.

(** One pass of the loop of __runBEM: ccblade.py:625-630.
    Result (fzero, a, ap, cl, cd). *)
Definition bem_pass (rt : rotor) (sc : sect) (phi a ap : A) : A * A * A * A * A :=
  let '(alpha, W, Re) := relativeWind phi a ap (s_Vx sc) (s_Vy sc) (rt_pitch rt) (s_chord sc)
                           (s_theta sc) (rt_rho rt) (rt_mu rt) in
  let '(cl, cd) := s_af sc alpha Re in
  let '(fz, a', ap') := inductionFactors (rt_opts rt) (rt_B rt) (s_r sc) (s_chord sc) (rt_Rhub rt)
                          (rt_Rtip rt) phi cl cd (s_Vx sc) (s_Vy sc) in
  (fz, a', ap', cl, cd).

(** Loop of __runBEM with [S m] passes, ccblade.py:620-632. *)
Fixpoint bem_loop (rt : rotor) (sc : sect) (phi : A) (m : nat) : A * A * A * A * A :=
  match m with
  | O => bem_pass rt sc phi (ofR 0) (ofR 0)
  | S m' => let '(_, a, ap, _, _) := bem_loop rt sc phi m' in bem_pass rt sc phi a ap
  end.

(** __runBEM, ccblade.py:617-632. With iterRe = 0 the loop body never runs and the
    names fzero, cl, cd are unbound (UnboundLocalError, a NameError). *)
Definition runBEM (rt : rotor) (sc : sect) (phi : A) : res (A * A * A * A * A) :=
  match rt_iterRe rt with O => Raise NameError | S m => Ok (bem_loop rt sc phi m) end.

(** __errorFunction, ccblade.py:634-641, for iterRe = S m. *)
Definition errf (rt : rotor) (sc : sect) (m : nat) (phi : A) : A :=
  let '(fz, _, _, _, _) := bem_loop rt sc phi m in fz.

(** __errorFunction_inverse, ccblade.py:643-663, for iterRe >= 1: every pass computes the
    same values from the given cl, cd. *)
Definition errf_inverse (rt : rotor) (r chord cl cd Vx Vy : A) (phi : A) : A :=
  let '(fz, _, _) := inductionFactors (rt_opts rt) (rt_B rt) r chord (rt_Rhub rt) (rt_Rtip rt)
                       phi cl cd Vx Vy in fz.

(** scipy.optimize.brentq: any function; what is assumed of it is a premise of the theorems. *)
Definition rootfinder := (A -> A) -> A -> A -> res A.

(** np.pi: a double near, but below, the real number pi. *)
Variable npi : R.

Definition eps : R := 1 / 1000000.

(** The choice of the bracket: ccblade.py:979-991. *)
Definition bracket (f : A -> A) : A * A :=
  let lo := ofR eps in
  let hi := ofR (npi / 2) in
  if nlt (ofR 0) (f lo * f hi) then
    if andb (nlt (f (ofR (- npi / 4))) (ofR 0)) (nlt (ofR 0) (f (ofR (- eps))))
    then (ofR (- npi / 4), ofR (- eps))
    else (ofR (npi / 2), ofR (npi - eps))
  else (lo, hi).

(** ccblade.py:979-999: bracket, root finder, fallback angle 0.0 on ValueError. *)
Definition solve (bq : rootfinder) (f : A -> A) : res A :=
  let '(lo, hi) := bracket f in
  match bq f lo hi with
  | Ok phi => Ok phi
  | Raise ValueError => Ok (ofR 0)
  | Raise e => Raise e
  end.

(** What __loads returns, without derivatives: ccblade.py:808. *)
Record sload := mkLoad {
  o_a : A; o_ap : A; o_Np : A; o_Tp : A; o_alpha : A; o_cl : A; o_cd : A;
  o_cn : A; o_ct : A; o_q : A; o_W : A; o_Re : A }.

Definition zero_load : sload :=
  let z := ofR 0 in mkLoad z z z z z z z z z z z z.

(** np.rad2deg *)
Definition rad2deg (x : A) : A := x * (ofR (180 / PI)).

(** __loads with derivatives=False: ccblade.py:717-812. *)
Definition loads (rt : rotor) (phi : A) (rotating : bool) (sc : sect) : res sload :=
  if andb (negb (neq (s_Vx sc) (ofR 0))) (negb (neq (s_Vy sc) (ofR 0))) then
    let cphi := ncos phi in
    let sphi := nsin phi in
    let rel a ap := relativeWind phi a ap (s_Vx sc) (s_Vy sc) (rt_pitch rt) (s_chord sc)
                      (s_theta sc) (rt_rho rt) (rt_mu rt) in
    do ind <- (if rotating then
                 do out <- runBEM rt sc phi;
                 let '(_, a, ap, cl, cd) := out in Ok (a, ap, cl, cd)
               else
                 let '(alpha, _, Re) := rel (ofR 0) (ofR 0) in
                 let '(cl, cd) := s_af sc alpha Re in Ok (ofR 0, ofR 0, cl, cd));
    let '(a, ap, cl, cd) := ind in
    let '(alpha, W, Re) := rel a ap in
    let cn := cl * cphi + cd * sphi in
    let ct := cl * sphi - cd * cphi in
    let q := ofR (1 / 2) * rt_rho rt * (W * W) in
    let Np := cn * q * s_chord sc in
    let Tp := ct * q * s_chord sc in
    Ok (mkLoad a ap Np Tp (rad2deg alpha) cl cd cn ct q W Re)
  else Ok zero_load.

(** np.isnan *)
Definition isnan (x : A) : bool := negb (neq x x).

(** ccblade.py:1027-1033: a NaN normal load zeroes a, ap, Np, Tp, alpha only. The message
    printed first mentions phi_lower, unbound when the rotor is parked (NameError). *)
Definition nan_guard (rotating : bool) (l : sload) : res sload :=
  if isnan (o_Np l) then
    if rotating then
      let z := ofR 0 in
      Ok (mkLoad z z z z z (o_cl l) (o_cd l) (o_cn l) (o_ct l) (o_q l) (o_W l) (o_Re l))
    else Raise NameError
  else Ok l.

(** Body of the loop over stations, ccblade.py:963-1033, standard mode; iterRe = 0 raises
    at the first residual evaluation. *)
Definition solve_station (bq : rootfinder) (rt : rotor) (rotating : bool) (sc : sect) : res sload :=
  do phi <- (if rotating then
               match rt_iterRe rt with O => Raise NameError | S m => solve bq (errf rt sc m) end
             else Ok (ofR (npi / 2)));
  do l <- loads rt phi rotating sc;
  nan_guard rotating l.

(** The same in inverse mode with target cl, cd, alpha (ccblade.py:966-967, 1003-1005): the twist is
    set first. Returns the twist and the loads. *)
Definition solve_station_inverse (bq : rootfinder) (rt : rotor) (rotating : bool)
    (r chord cl cd alpha : A) (af : airfoil) (Vx Vy : A) : res (A * sload) :=
  do phi <- (if rotating then
               match rt_iterRe rt with
               | O => Raise NameError
               | S _ => solve bq (errf_inverse rt r chord cl cd Vx Vy)
               end
             else Ok (ofR (npi / 2)));
  let theta := phi - alpha - rt_pitch rt in
  do l <- loads rt phi rotating (mkSect r chord theta af Vx Vy);
  do l' <- nan_guard rotating l;
  Ok (theta, l').

End Station.

Arguments airfoil A : clear implicits.
Arguments rotor A : clear implicits.
Arguments sect A : clear implicits.
Arguments sload A : clear implicits.
Arguments rootfinder A : clear implicits.

(** ** The object *)

(** The attributes of a CCBlade object, ccblade.py:554-614. Angles in radians. [b_cl], [b_cd],
    [b_alpha] are set from outside in inverse mode (ccblade_component.py:617-620); [b_theta] holds
    carrier values because inverse mode stores computed twists in it. [b_pitch] is the pitch of
    the last call. *)
Record blade := mkBlade {
  b_r : list R; b_chord : list R; b_theta : list fl; b_af : list (airfoil fl);
  b_Rhub : R; b_Rtip : R; b_B : nat; b_rho : R; b_mu : R;
  b_precone : R; b_tilt : R; b_yaw : R; b_shearExp : R; b_hubHt : R;
  b_opts : bemopts; b_iterRe : nat;
  b_precurve : list R; b_precurveTip : R; b_presweep : list R; b_presweepTip : R;
  b_rotorR : R; b_nSector : nat;
  b_inverse : bool; b_cl : list R; b_cd : list R; b_alpha : list R;
  b_pitch : R }.

Definition aget (l : list R) : arr := fun i => nth i l 0.

(** Python list/array indexing [l[i]], i >= 0. *)
Definition pyget {X} (l : list X) (i : nat) : res X :=
  match nth_error l i with Some x => Ok x | None => Raise IndexError end.

(** A loop that stops at the first exception. *)
Fixpoint mapM {X Y} (f : X -> res Y) (l : list X) : res (list Y) :=
  match l with
  | [] => Ok []
  | x :: l' => do y <- f x; do ys <- mapM f l'; Ok (y :: ys)
  end.

Definition set_call (b : blade) (theta : list fl) (pitch : R) : blade :=
  mkBlade (b_r b) (b_chord b) theta (b_af b) (b_Rhub b) (b_Rtip b) (b_B b) (b_rho b) (b_mu b)
    (b_precone b) (b_tilt b) (b_yaw b) (b_shearExp b) (b_hubHt b) (b_opts b) (b_iterRe b)
    (b_precurve b) (b_precurveTip b) (b_presweep b) (b_presweepTip b) (b_rotorR b) (b_nSector b)
    (b_inverse b) (b_cl b) (b_cd b) (b_alpha b) pitch.

(** The station-level view of the object during a call with pitch angle [pitch] (radians). *)
Definition rotor_of (b : blade) (pitch : R) : rotor fl :=
  mkRotor (Fin (b_Rhub b)) (Fin (b_Rtip b)) (b_B b) (Fin (b_rho b)) (Fin (b_mu b))
    (b_opts b) (b_iterRe b) (Fin pitch).

(** __windComponents, ccblade.py:814-832, with azimuth in radians. *)
Definition wind (b : blade) (Uinf Omega azimuth : R) : arr * arr :=
  windComponents (length (b_r b)) (aget (b_r b)) (aget (b_precurve b)) (aget (b_presweep b))
    (b_precone b) (b_yaw b) (b_tilt b) azimuth Uinf Omega (b_hubHt b) (b_shearExp b).

(** The Fortran wrapper refuses arrays of different lengths. *)
Definition shapes_ok (b : blade) : bool :=
  andb (Nat.eqb (length (b_precurve b)) (length (b_r b)))
       (Nat.eqb (length (b_presweep b)) (length (b_r b))).

Section Calls.
Variable npi : R.
Variable bq : rootfinder fl.

(** Loop body for station i: (stored twist, loads). *)
Definition station_i (b : blade) (pitch : R) (Omega : R) (V : arr * arr) (i : nat) : res (fl * sload fl) :=
  let rotating := negb (reqb Omega 0) in
  let rt := rotor_of b pitch in
  let Vx := Fin (fst V i) in
  let Vy := Fin (snd V i) in
  do r <- pyget (b_r b) i;
  do chord <- pyget (b_chord b) i;
  do af <- pyget (b_af b) i;
  if b_inverse b then
    do cl <- pyget (b_cl b) i;
    do cd <- pyget (b_cd b) i;
    do alpha <- pyget (b_alpha b) i;
    solve_station_inverse npi bq rt rotating (Fin r) (Fin chord) (Fin cl) (Fin cd) (Fin alpha) af Vx Vy
  else
    do theta <- pyget (b_theta b) i;
    do l <- solve_station npi bq rt rotating (mkSect (Fin r) (Fin chord) theta af Vx Vy);
    Ok (theta, l).

(** distributedAeroLoads, ccblade.py:878-1153, derivatives=False, scalar Uinf. pitch and azimuth
    in degrees, Omega in RPM. Returns the updated object and the list of station loads. In
    inverse mode self.theta is replaced (ccblade.py:955-957, 1003-1005). *)
Definition distributedAeroLoads (b : blade) (Uinf Omega pitch azimuth : R) : res (blade * list (sload fl)) :=
  let p := radians pitch in
  if negb (shapes_ok b) then Raise OtherException
  else
    let V := wind b Uinf Omega (radians azimuth) in
    do out <- mapM (station_i b p Omega V) (seq 0 (length (b_r b)));
    let theta := if b_inverse b then map fst out else b_theta b in
    Ok (set_call b theta p, map snd out).

(** ** evaluate *)

(** Real values of a list of carrier values, if all are finite. *)
Fixpoint fvals (l : list fl) : option (list R) :=
  match l with
  | [] => Some []
  | x :: l' => match fval x, fvals l' with Some v, Some vs => Some (v :: vs) | _, _ => None end
  end.

(** Rotor totals of one condition: (T, Y, Z, Q, My, Mz, Mb). *)
Record totals := mkTot { t_T : R; t_Y : R; t_Z : R; t_Q : R; t_My : R; t_Mz : R; t_Mb : R }.

Definition tot0 : totals := mkTot 0 0 0 0 0 0 0.

(** Contribution of one azimuth, ccblade.py:1281-1290. *)
Definition tot_add (b : blade) (azimuth : R) (Np Tp : list R) (t : totals) : totals :=
  let ca := cos azimuth in
  let sa := sin azimuth in
  let B := INR (b_B b) in
  let nsec := INR (b_nSector b) in
  let '(Tsub, Ysub, Zsub, Qsub, Msub) :=
    thrustTorque (length (b_r b)) (aget Np) (aget Tp) (aget (b_r b)) (aget (b_precurve b))
      (aget (b_presweep b)) (b_precone b) (b_Rhub b) (b_Rtip b) (b_precurveTip b) (b_presweepTip b) in
  mkTot (t_T t + B * Tsub / nsec)
        (t_Y t + B * (Ysub * ca - Zsub * sa) / nsec)
        (t_Z t + B * (Zsub * ca + Ysub * sa) / nsec)
        (t_Q t + B * Qsub / nsec)
        (t_My t + B * Msub * ca / nsec)
        (t_Mz t + B * Msub * sa / nsec)
        (t_Mb t + Msub / nsec).

(** np.linspace(0, 2*pi, nsec+1)[:-1], ccblade.py:1270 *)
Definition azimuths (nsec : nat) : list R := map (fun k => INR k * (2 * PI / INR nsec)) (seq 0 nsec).

(** The loop over azimuths for one condition, ccblade.py:1273-1290. The totals are [None] as soon
    as some load is infinite or NaN: such totals are not modelled. The last component is the W array
    of the last azimuth. *)
Fixpoint azimuth_loop (azs : list R) (b : blade) (U Om p : R) (acc : option totals) (W : option (list fl))
  : res (blade * option totals * option (list fl)) :=
  match azs with
  | [] => Ok (b, acc, W)
  | az :: azs' =>
      do out <- distributedAeroLoads b U Om p (degrees az);
      let '(b', ls) := out in
      let acc' := match acc, fvals (map o_Np ls), fvals (map o_Tp ls) with
                  | Some t, Some Np, Some Tp => Some (tot_add b az Np Tp t)
                  | _, _, _ => None
                  end in
      azimuth_loop azs' b' U Om p acc' (Some (map o_W ls))
  end.

(** The loop over conditions, ccblade.py:1271. *)
Fixpoint condition_loop (conds : list (R * R * R)) (b : blade) (W : option (list fl))
  : res (blade * list (option totals) * option (list fl)) :=
  match conds with
  | [] => Ok (b, [], W)
  | (U, Om, p) :: conds' =>
      do out <- azimuth_loop (azimuths (b_nSector b)) b U Om p (Some tot0) W;
      let '(b', t, W') := out in
      do rest <- condition_loop conds' b' W';
      let '(b'', ts, W'') := rest in
      Ok (b'', t :: ts, W'')
  end.

(** Entry of the output dictionary for one condition: P, the totals, and the coefficients
    CP CT CY CZ CQ CMy CMz CMb (ccblade.py:1328, 1361-1370). *)
Record outputs := mkOut {
  y_P : R; y_tot : totals;
  y_CP : R; y_CT : R; y_CY : R; y_CZ : R; y_CQ : R; y_CMy : R; y_CMz : R; y_CMb : R }.

(** ccblade.py:1328 and 1361-1370 for one condition. Division by zero (zero wind speed, density or
    radius) is not modelled: theorems about coefficients assume those non-zero. *)
Definition finish (b : blade) (U Om : R) (t : totals) : outputs :=
  let P := t_Q t * Om * PI / 30 in
  let q := 1 / 2 * b_rho b * U ^ 2 in
  let A := PI * b_rotorR b ^ 2 in
  mkOut P t
    (P / (q * A * U)) (t_T t / (q * A)) (t_Y t / (q * A)) (t_Z t / (q * A))
    (t_Q t / (q * b_rotorR b * A)) (t_My t / (q * b_rotorR b * A))
    (t_Mz t / (q * b_rotorR b * A)) (t_Mb t / (q * b_rotorR b * A)).

(** evaluate, ccblade.py:1155-1488, for conditions given as (Uinf[i], Omega[i], pitch[i]), i.e. three
    arrays of equal length. The coefficients are computed in any case here (coefficients=True).
    With no condition at all, or no sector, the name W is unbound. *)
Definition evaluate (b : blade) (conds : list (R * R * R))
  : res (blade * list (option outputs) * list fl) :=
  do out <- condition_loop conds b None;
  let '(b', ts, W) := out in
  match W with
  | None => Raise NameError
  | Some w =>
      Ok (b', map (fun ct : (R * R * R) * option totals =>
                     let '((U, Om, _), t) := ct in option_map (finish b U Om) t) (combine conds ts), w)
  end.

End Calls.

(** ** The constructor *)

(** Arguments of CCBlade.__init__ kept by the model, ccblade.py:463-490. Angles in degrees. *)
Record args := mkArgs {
  g_r : list R; g_chord : list R; g_theta : list R; g_af : list (airfoil fl);
  g_Rhub : R; g_Rtip : R; g_B : nat; g_rho : R; g_mu : R;
  g_precone : R; g_tilt : R; g_yaw : R; g_shearExp : R; g_hubHt : R; g_nSector : nat;
  g_precurve : option (list R); g_precurveTip : R; g_presweep : option (list R); g_presweepTip : R;
  g_opts : bemopts; g_iterRe : nat }.

(** Replace the first / last element. *)
Definition set_first (x : R) (l : list R) : list R := match l with [] => [] | _ :: l' => x :: l' end.
Definition set_last (x : R) (l : list R) : list R := match l with [] => [] | _ => removelast l ++ [x] end.

(** r_nd, ccblade.py:588 *)
Definition r_nd (r : list R) : list R :=
  map (fun x => (x - hd 0 r) / (last r 0 - hd 0 r)) r.

(** nd_hub, nd_tip, ccblade.py:589-590; r_nd[:2].mean() and r_nd[-2:].mean() for at least two entries. *)
Definition nd_hub (nd : list R) : R := Rmin (1 / 100) ((nth 0 nd 0 + nth 1 nd 0) / 2).
Definition nd_tip (nd : list R) : R :=
  Rmax (99 / 100) ((nth (length nd - 2) nd 0 + nth (length nd - 1) nd 0) / 2).

(** ccblade.py:595-598 for one of precurve, presweep: l[-1] of an empty array, and np.interp of arrays of different
    lengths, which is called only if the last value is that of the tip. *)
Definition tip_error (r : list R) (tip : R) (l : list R) : option exc :=
  match l with
  | [] => Some IndexError
  | _ => if andb (negb (Nat.eqb (length l) (length r))) (reqb tip (last l 0)) then Some ValueError else None
  end.
Definition curve_error (r : list R) (pct : R) (pc : list R) (pst : R) (ps : list R) : option exc :=
  match tip_error r pct pc with Some e => Some e | None => tip_error r pst ps end.

(** CCBlade.__init__, ccblade.py:554-614. Simplifications: at least two stations (with one, r_nd is 0/0);
    float arrays (an integer r, precurve or presweep array would truncate the moved value). *)
Definition construct (g : args) : res blade :=
  let r := g_r g in
  if Nat.ltb (length r) 2 then Raise OtherException
  else
    let zeros := map (fun _ => 0) r in
    let precurve := match g_precurve g with Some l => l | None => zeros end in
    let precurveTip := match g_precurve g with Some _ => g_precurveTip g | None => 0 end in
    let presweep := match g_presweep g with Some l => l | None => zeros end in
    let presweepTip := match g_presweep g with Some _ => g_presweepTip g | None => 0 end in
    match curve_error r precurveTip precurve presweepTip presweep with
    | Some e => Raise e
    | None =>
    let nd := r_nd r in
    let nh := nd_hub nd in
    let nt := nd_tip nd in
    let r1 := if reqb (g_Rhub g) (hd 0 r) then set_first (interp nh nd r) r else r in
    let r2 := if reqb (g_Rtip g) (last r 0) then set_last (interp nt nd r) r1 else r1 in
    let pc := if reqb precurveTip (last precurve 0) then set_last (interp nt nd precurve) precurve else precurve in
    let ps := if reqb presweepTip (last presweep 0) then set_last (interp nt nd presweep) presweep else presweep in
    let precone := radians (g_precone g) in
    let tilt := radians (g_tilt g) in
    let yaw := radians (g_yaw g) in
    let nsec := if andb (andb (reqb tilt 0) (reqb yaw 0)) (reqb (g_shearExp g) 0) then 1%nat
                else Nat.max 4 (g_nSector g) in
    Ok (mkBlade r2 (g_chord g) (map (fun x => Fin (radians x)) (g_theta g)) (g_af g)
          (g_Rhub g) (g_Rtip g) (g_B g) (g_rho g) (g_mu g) precone tilt yaw
          (g_shearExp g) (g_hubHt g) (g_opts g) (g_iterRe g) pc precurveTip ps presweepTip
          (g_Rtip g * cos precone + precurveTip * sin precone) nsec
          false [] [] [] 0)
    end.
