(** Independent specification vocabulary for the coordinate-system properties:
    elementary vector algebra, rotation of a frame about an axis (Rodrigues'
    formula), the table of documented rotation axes (docs/csystem.rst), inverse
    conversions, and "the same chain with one angle replaced". *)
From Coquelicot Require Import Coquelicot.
From Coq Require Import Reals List String Bool.
From Verif Require Import Prelim CSystem.
Import ListNotations.
Open Scope R_scope.

Definition vec3 : Type := (R * R * R)%type.
Definition dot3 (u v : vec3) : R :=
  let '(a, b, c) := u in let '(x, y, z) := v in a * x + b * y + c * z.
Definition cross3 (u v : vec3) : vec3 :=
  let '(a, b, c) := u in let '(x, y, z) := v in
  (b * z - c * y, c * x - a * z, a * y - b * x).
Definition scale3 (k : R) (v : vec3) : vec3 := let '(x, y, z) := v in (k * x, k * y, k * z).
Definition add3 (u v : vec3) : vec3 :=
  let '(a, b, c) := u in let '(x, y, z) := v in (a + x, b + y, c + z).
Definition e1 : vec3 := (1, 0, 0).
Definition e2 : vec3 := (0, 1, 0).
Definition e3 : vec3 := (0, 0, 1).

(** Rodrigues: the vector [v] rotated by [ang] (radians) about the unit axis [n]. *)
Definition rodrigues (n : vec3) (ang : R) (v : vec3) : vec3 :=
  add3 (add3 (scale3 (cos ang) v) (scale3 (sin ang) (cross3 n v)))
       (scale3 (dot3 n v * (1 - cos ang)) n).

(** Components of [v] in the frame obtained by rotating the current frame by
    [ang] degrees about [n]. *)
Definition in_rotated_frame (n : vec3) (ang : R) (v : vec3) : vec3 :=
  (dot3 v (rodrigues n (ang * PI / 180) e1),
   dot3 v (rodrigues n (ang * PI / 180) e2),
   dot3 v (rodrigues n (ang * PI / 180) e3)).

(** docs/csystem.rst: beta about +z, Psi about +z, Theta about +y, Lambda about
    +x, Phi about -y, theta about -z. The conversion towards the later frame
    in the chain inertial, wind, yaw, hub, azimuth, blade, airfoil rotates the frame by the
    documented angle; the backward one by its negative. *)
Definition documented (c : conv) : option (vec3 * R) :=
  match c with
  | InertialToWind b => Some (e3, b)
  | WindToInertial b => Some (e3, - b)
  | WindToYaw p => Some (e3, p)
  | YawToWind p => Some (e3, - p)
  | YawToHub t => Some (e2, t)
  | HubToYaw t => Some (e2, - t)
  | HubToAzimuth l => Some (e1, l)
  | AzimuthToHub l => Some (e1, - l)
  | AzimuthToBlade f => Some (scale3 (-1) e2, f)
  | BladeToAzimuth f => Some (scale3 (-1) e2, - f)
  | BladeToAirfoil t => Some (scale3 (-1) e3, t)
  | AirfoilToBlade t => Some (scale3 (-1) e3, - t)
  | AirfoilToProfile | ProfileToAirfoil => None
  end.

Definition inverse (c : conv) : conv :=
  match c with
  | WindToInertial a => InertialToWind a | InertialToWind a => WindToInertial a
  | YawToWind a => WindToYaw a | WindToYaw a => YawToWind a
  | HubToYaw a => YawToHub a | YawToHub a => HubToYaw a
  | HubToAzimuth a => AzimuthToHub a | AzimuthToHub a => HubToAzimuth a
  | AzimuthToBlade a => BladeToAzimuth a | BladeToAzimuth a => AzimuthToBlade a
  | AirfoilToBlade a => BladeToAirfoil a | BladeToAirfoil a => AirfoilToBlade a
  | AirfoilToProfile => ProfileToAirfoil | ProfileToAirfoil => AirfoilToProfile
  end.

Definition is_profile (c : conv) : bool :=
  match c with AirfoilToProfile | ProfileToAirfoil => true | _ => false end.

Definition coords (v : dvec) : vec3 := (vx v, vy v, vz v).
Definition of_coords (u : vec3) : dvec := let '(x, y, z) := u in fresh x y z.

Definition no_profile (c : conv) : Prop :=
  match c with AirfoilToProfile | ProfileToAirfoil => False | _ => True end.

(** The components an operand contributes; products and quotients component by component. *)
Definition spread (o : operand) : vec3 := match o with Vec v => coords v | Num a => (a, a, a) end.
Definition mul3 (u v : vec3) : vec3 :=
  let '(a, b, c) := u in let '(x, y, z) := v in (a * x, b * y, c * z).
Definition nonzero3 (u : vec3) : Prop := let '(a, b, c) := u in a <> 0 /\ b <> 0 /\ c <> 0.

(** Name and value of the angle of a conversion, as the user knows it. *)
Definition angle_of (c : conv) : option (string * R) :=
  match c with
  | WindToInertial a | InertialToWind a => Some ("beta"%string, a)
  | YawToWind a | WindToYaw a => Some ("yaw"%string, a)
  | HubToYaw a | YawToHub a => Some ("tilt"%string, a)
  | HubToAzimuth a | AzimuthToHub a => Some ("azimuth"%string, a)
  | AzimuthToBlade a | BladeToAzimuth a => Some ("precone"%string, a)
  | AirfoilToBlade a | BladeToAirfoil a => Some ("theta"%string, a)
  | AirfoilToProfile | ProfileToAirfoil => None
  end.

Fixpoint angle_names (cs : list conv) : list string :=
  match cs with
  | [] => []
  | c :: cs' => match angle_of c with Some (k, _) => k :: angle_names cs' | None => angle_names cs' end
  end.

(** The same conversion with another value of its angle. *)
Definition with_angle (c : conv) (t : R) : conv :=
  match c with
  | WindToInertial _ => WindToInertial t | InertialToWind _ => InertialToWind t
  | YawToWind _ => YawToWind t | WindToYaw _ => WindToYaw t
  | HubToYaw _ => HubToYaw t | YawToHub _ => YawToHub t
  | HubToAzimuth _ => HubToAzimuth t | AzimuthToHub _ => AzimuthToHub t
  | AzimuthToBlade _ => AzimuthToBlade t | BladeToAzimuth _ => BladeToAzimuth t
  | AirfoilToBlade _ => AirfoilToBlade t | BladeToAirfoil _ => BladeToAirfoil t
  | AirfoilToProfile => AirfoilToProfile | ProfileToAirfoil => ProfileToAirfoil
  end.

(** The chain in which every angle called [k] has the value [t]. *)
Definition set_angle (k : string) (t : R) (cs : list conv) : list conv :=
  map (fun c => match angle_of c with
                | Some (k', _) => if String.eqb k k' then with_angle c t else c
                | None => c end) cs.

(** The chain in which the first angle called [k] has the value [t]. *)
Fixpoint set_first (k : string) (t : R) (cs : list conv) : list conv :=
  match cs with
  | [] => []
  | c :: cs' =>
      match angle_of c with
      | Some (k', _) => if String.eqb k k' then with_angle c t :: cs' else c :: set_first k t cs'
      | None => c :: set_first k t cs'
      end
  end.

(** Value of the first angle called [k]. *)
Fixpoint first_angle (k : string) (cs : list conv) : option R :=
  match cs with
  | [] => None
  | c :: cs' =>
      match angle_of c with
      | Some (k', a) => if String.eqb k k' then Some a else first_angle k cs'
      | None => first_angle k cs'
      end
  end.


(** The entries stored under key [k] in the dx, dy, dz dictionaries. *)
Definition dcol (v : dvec) (k : string) : vec3 := (dget (ddx v) k, dget (ddy v) k, dget (ddz v) k).

Definition c1 (u : vec3) : R := fst (fst u).
Definition c2 (u : vec3) : R := snd (fst u).
Definition c3 (u : vec3) : R := snd u.

(** A curve of vectors has derivative [du] at [t]. *)
Definition vderive (u : R -> vec3) (t : R) (du : vec3) : Prop :=
  is_derive (fun t => c1 (u t)) t (c1 du) /\
  is_derive (fun t => c2 (u t)) t (c2 du) /\
  is_derive (fun t => c3 (u t)) t (c3 du).

(** Number of passages into or out of the profile frame. *)
Fixpoint profile_count (cs : list conv) : nat :=
  match cs with
  | [] => O
  | c :: cs' => if is_profile c then S (profile_count cs') else profile_count cs'
  end.

