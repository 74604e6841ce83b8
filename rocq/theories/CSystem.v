(** Model of ccblade/csystem.py: class DirectionVector.

    Simplifications: components are single exact reals (the code also accepts
    numpy arrays, on which every operation acts element by element); numpy's
    integer dtypes are not modelled. Derivative dictionaries are association
    lists with Python's assignment semantics (replace, else append). *)
From Coq Require Import Reals List String Bool.
From Verif Require Import Prelim.
Import ListNotations.
Open Scope R_scope.
Local Open Scope string_scope.

(** Python dict from string to float. *)
Definition dict := list (string * R).

Fixpoint dlookup (k : string) (d : dict) : option R :=
  match d with
  | [] => None
  | (k', v) :: d' => if String.eqb k k' then Some v else dlookup k d'
  end.

(** [d[k]]; a missing key (KeyError in Python) reads as 0 here. Theorem
    [csystem_no_keyerror] shows that every read made by the code is of a key that is present. *)
Definition dget (d : dict) (k : string) : R :=
  match dlookup k d with Some v => v | None => 0 end.

(** [d[k] = v] *)
Fixpoint dset (k : string) (v : R) (d : dict) : dict :=
  match d with
  | [] => [(k, v)]
  | (k', v') :: d' => if String.eqb k k' then (k', v) :: d' else (k', v') :: dset k v d'
  end.

Definition dkeys (d : dict) : list string := map fst d.

(** csystem.py:19-56, the attributes of a DirectionVector. *)
Record dvec := mkDV { vx : R; vy : R; vz : R; ddx : dict; ddy : dict; ddz : dict }.

(** csystem.py:34-56, constructor without derivative arguments. *)
Definition fresh (x y z : R) : dvec :=
  mkDV x y z
    [("dx", 1); ("dy", 0); ("dz", 0)]
    [("dx", 0); ("dy", 1); ("dz", 0)]
    [("dx", 0); ("dy", 0); ("dz", 1)].

(** csystem.py:102-105: keys of dx other than dx, dy, dz, in order. *)
Definition angle_keys (d : dict) : list string :=
  filter (fun k => negb (String.eqb k "dx" || String.eqb k "dy" || String.eqb k "dz")) (dkeys d).

(** csystem.py:83-137, [_rotateAboutZ]. Arguments: the values and dictionaries
    that [getattr] picks for xstring, ystring, zstring; the angle in degrees;
    its name; the reverse flag. Multiplications by [np.ones_like(theta)] (array
    shape only) are omitted. *)
Definition rotateAboutZ (x y z : R) (dx dy dz : dict)
    (theta0 : R) (thetaname : string) (reverse : bool)
  : R * R * R * dict * dict * dict :=
  let thetaM := if reverse then -1 else 1 in
  let theta := radians (theta0 * thetaM) in
  let c := cos theta in
  let s := sin theta in
  let xnew := x * c + y * s in
  let ynew := - x * s + y * c in
  let znew := z in
  let angles := angle_keys dx in
  let dxnew0 := [] in
  let dxnew1 := dset "dx" (dget dx "dx" * c + dget dy "dx" * s) dxnew0 in
  let dxnew2 := dset "dy" (dget dx "dy" * c + dget dy "dy" * s) dxnew1 in
  let dxnew3 := dset "dz" (dget dx "dz" * c + dget dy "dz" * s) dxnew2 in
  let dxnew4 := dset ("d" ++ thetaname) ((- x * s + y * c) * radians thetaM) dxnew3 in
  let dxnew := fold_left (fun d k => dset k (dget dx k * c + dget dy k * s) d) angles dxnew4 in
  let dynew0 := [] in
  let dynew1 := dset "dx" (- dget dx "dx" * s + dget dy "dx" * c) dynew0 in
  let dynew2 := dset "dy" (- dget dx "dy" * s + dget dy "dy" * c) dynew1 in
  let dynew3 := dset "dz" (- dget dx "dz" * s + dget dy "dz" * c) dynew2 in
  let dynew4 := dset ("d" ++ thetaname) ((- x * c - y * s) * radians thetaM) dynew3 in
  let dynew := fold_left (fun d k => dset k (- dget dx k * s + dget dy k * c) d) angles dynew4 in
  let dznew0 := [] in
  let dznew1 := dset "dx" (dget dz "dx") dznew0 in
  let dznew2 := dset "dy" (dget dz "dy") dznew1 in
  let dznew3 := dset "dz" (dget dz "dz") dznew2 in
  let dznew4 := dset ("d" ++ thetaname) 0 dznew3 in
  let dznew := fold_left (fun d k => dset k (dget dz k) d) angles dznew4 in
  (xnew, ynew, znew, dxnew, dynew, dznew).

(** Rotation with strings ("x","y","z"): csystem.py:153, 170, 187, 204, 329, 347. *)
Definition rot_xyz (v : dvec) (th : R) (name : string) (rev : bool) : dvec :=
  let '(x, y, z, dx, dy, dz) := rotateAboutZ (vx v) (vy v) (vz v) (ddx v) (ddy v) (ddz v) th name rev in
  mkDV x y z dx dy dz.

(** Rotation with strings ("z","x","y"): csystem.py:221, 238, 290, 308. *)
Definition rot_zxy (v : dvec) (th : R) (name : string) (rev : bool) : dvec :=
  let '(z, x, y, dz, dx, dy) := rotateAboutZ (vz v) (vx v) (vy v) (ddz v) (ddx v) (ddy v) th name rev in
  mkDV x y z dx dy dz.

(** Rotation with strings ("y","z","x"): csystem.py:255, 272. *)
Definition rot_yzx (v : dvec) (th : R) (name : string) (rev : bool) : dvec :=
  let '(y, z, x, dy, dz, dx) := rotateAboutZ (vy v) (vz v) (vx v) (ddy v) (ddz v) (ddx v) th name rev in
  mkDV x y z dx dy dz.

(** csystem.py:139-155 *)
Definition windToInertial (v : dvec) (beta : R) := rot_xyz v beta "beta" true.
(** csystem.py:156-172 *)
Definition inertialToWind (v : dvec) (beta : R) := rot_xyz v beta "beta" false.
(** csystem.py:173-189 *)
Definition yawToWind (v : dvec) (psi : R) := rot_xyz v psi "yaw" true.
(** csystem.py:190-206 *)
Definition windToYaw (v : dvec) (psi : R) := rot_xyz v psi "yaw" false.
(** csystem.py:207-223 *)
Definition hubToYaw (v : dvec) (tilt : R) := rot_zxy v tilt "tilt" true.
(** csystem.py:224-240 *)
Definition yawToHub (v : dvec) (tilt : R) := rot_zxy v tilt "tilt" false.
(** csystem.py:241-257 *)
Definition hubToAzimuth (v : dvec) (az : R) := rot_yzx v az "azimuth" false.
(** csystem.py:258-274 *)
Definition azimuthToHub (v : dvec) (az : R) := rot_yzx v az "azimuth" true.
(** csystem.py:276-292 *)
Definition azimuthToBlade (v : dvec) (cone : R) := rot_zxy v cone "precone" true.
(** csystem.py:294-310 *)
Definition bladeToAzimuth (v : dvec) (cone : R) := rot_zxy v cone "precone" false.
(** csystem.py:313-329 *)
Definition airfoilToBlade (v : dvec) (theta : R) := rot_xyz v theta "theta" false.
(** csystem.py:331-347 *)
Definition bladeToAirfoil (v : dvec) (theta : R) := rot_xyz v theta "theta" true.
(** csystem.py:349-359 *)
Definition airfoilToProfile (v : dvec) : dvec :=
  mkDV (vy v) (vx v) (vz v) (ddy v) (ddx v) (ddz v).
(** csystem.py:361-371 *)
Definition profileToAirfoil (v : dvec) : dvec :=
  mkDV (vy v) (vx v) (vz v) (ddy v) (ddx v) (ddz v).

(** csystem.py:373-394; np.cross of 3-vectors. The result is built without
    derivative arguments. *)
Definition cross (a b : dvec) : dvec :=
  fresh (vy a * vz b - vz a * vy b)
        (vz a * vx b - vx a * vz b)
        (vx a * vy b - vy a * vx b).

(** csystem.py:396-415; returns (dx, dy, dz), each with the triples stored
    under namea and nameb. *)
Definition triple : Type := (R * R * R)%type.
Definition cross_deriv (a b : dvec) : (triple * triple) * (triple * triple) * (triple * triple) :=
  ( ((0, vz b, - vy b), (0, - vz a, vy a)),
    ((- vz b, 0, vx b), (vz a, 0, - vx a)),
    ((vy b, - vx b, 0), (- vy a, vx a, 0)) ).

(** csystem.py:417-447; same content with one dictionary key per component. *)
Definition cross_deriv_array (a b : dvec) (namea nameb : string) : dict * dict * dict :=
  let kx n := "d" ++ n ++ "x" in
  let ky n := "d" ++ n ++ "y" in
  let kz n := "d" ++ n ++ "z" in
  let dx0 := [] in
  let dx1 := dset (kx namea) 0 dx0 in
  let dx2 := dset (ky namea) (vz b) dx1 in
  let dx3 := dset (kz namea) (- vy b) dx2 in
  let dx4 := dset (kx nameb) 0 dx3 in
  let dx5 := dset (ky nameb) (- vz a) dx4 in
  let dx := dset (kz nameb) (vy a) dx5 in
  let dy0 := [] in
  let dy1 := dset (kx namea) (- vz b) dy0 in
  let dy2 := dset (ky namea) 0 dy1 in
  let dy3 := dset (kz namea) (vx b) dy2 in
  let dy4 := dset (kx nameb) (vz a) dy3 in
  let dy5 := dset (ky nameb) 0 dy4 in
  let dy := dset (kz nameb) (- vx a) dy5 in
  let dz0 := [] in
  let dz1 := dset (kx namea) (vy b) dz0 in
  let dz2 := dset (ky namea) (- vx b) dz1 in
  let dz3 := dset (kz namea) 0 dz2 in
  let dz4 := dset (kx nameb) (- vy a) dz3 in
  let dz5 := dset (ky nameb) (vx a) dz4 in
  let dz := dset (kz nameb) 0 dz5 in
  (dx, dy, dz).

(** csystem.py:449-451 *)
Definition dv_neg (v : dvec) : dvec := fresh (- vx v) (- vy v) (- vz v).
(** The other operand of the arithmetic operators: a DirectionVector, or a number used for all three components. *)
Inductive operand := Vec (v : dvec) | Num (a : R).
Definition ox (o : operand) : R := match o with Vec v => vx v | Num a => a end.
Definition oy (o : operand) : R := match o with Vec v => vy v | Num a => a end.
Definition oz (o : operand) : R := match o with Vec v => vz v | Num a => a end.
(** csystem.py:454-460 *)
Definition dv_add (u : dvec) (o : operand) : dvec := fresh (vx u + ox o) (vy u + oy o) (vz u + oz o).
(** csystem.py:462-468 *)
Definition dv_sub (u : dvec) (o : operand) : dvec := fresh (vx u - ox o) (vy u - oy o) (vz u - oz o).
(** csystem.py:470-482, in place: components change, dictionaries stay *)
Definition dv_iadd (u : dvec) (o : operand) : dvec :=
  mkDV (vx u + ox o) (vy u + oy o) (vz u + oz o) (ddx u) (ddy u) (ddz u).
(** csystem.py:484-496, in place *)
Definition dv_isub (u : dvec) (o : operand) : dvec :=
  mkDV (vx u - ox o) (vy u - oy o) (vz u - oz o) (ddx u) (ddy u) (ddz u).
(** csystem.py:498-504 *)
Definition dv_mul (u : dvec) (o : operand) : dvec := fresh (vx u * ox o) (vy u * oy o) (vz u * oz o).
(** csystem.py:506-512; numpy gives infinities and NaN for zero divisors, which are outside this model (theorems ask
    for divisors other than zero). *)
Definition dv_truediv (u : dvec) (o : operand) : dvec := fresh (vx u / ox o) (vy u / oy o) (vz u / oz o).
(** csystem.py:514-525, in place *)
Definition dv_imul (u : dvec) (o : operand) : dvec :=
  mkDV (vx u * ox o) (vy u * oy o) (vz u * oz o) (ddx u) (ddy u) (ddz u).

(** One conversion step as a user writes it, and chains of them. *)
Inductive conv :=
| WindToInertial (beta : R) | InertialToWind (beta : R)
| YawToWind (psi : R) | WindToYaw (psi : R)
| HubToYaw (tilt : R) | YawToHub (tilt : R)
| HubToAzimuth (az : R) | AzimuthToHub (az : R)
| AzimuthToBlade (cone : R) | BladeToAzimuth (cone : R)
| AirfoilToBlade (theta : R) | BladeToAirfoil (theta : R)
| AirfoilToProfile | ProfileToAirfoil.

Definition apply1 (v : dvec) (c : conv) : dvec :=
  match c with
  | WindToInertial a => windToInertial v a
  | InertialToWind a => inertialToWind v a
  | YawToWind a => yawToWind v a
  | WindToYaw a => windToYaw v a
  | HubToYaw a => hubToYaw v a
  | YawToHub a => yawToHub v a
  | HubToAzimuth a => hubToAzimuth v a
  | AzimuthToHub a => azimuthToHub v a
  | AzimuthToBlade a => azimuthToBlade v a
  | BladeToAzimuth a => bladeToAzimuth v a
  | AirfoilToBlade a => airfoilToBlade v a
  | BladeToAirfoil a => bladeToAirfoil v a
  | AirfoilToProfile => airfoilToProfile v
  | ProfileToAirfoil => profileToAirfoil v
  end.

Definition apply (cs : list conv) (v : dvec) : dvec := fold_left apply1 cs v.
