(** Specification vocabulary for section solves and rotor totals. *)
From Coq Require Import Reals Bool Arith List Lra.
From Verif Require Import Prelim Num Bem Blade FlProofs IndSpec.
Import ListNotations.
Open Scope R_scope.

(** Strict signs of a number with special values; a NaN has none. *)
Definition pos (x : fl) : Prop := x = PInf \/ exists v, x = Fin v /\ 0 < v.
Definition neg (x : fl) : Prop := x = NInf \/ exists v, x = Fin v /\ v < 0.
Definition same_strict_sign (x y : fl) : Prop := (pos x /\ pos y) \/ (neg x /\ neg y).

(** The documented search intervals (Ning, doi:10.1002/we.1636, and the comments in
    ccblade.py:977-991), eps = 1e-6, p the number used for pi. *)
Inductive documented_bracket (p : R) (f : fl -> fl) : R -> R -> Prop :=
| standard : ~ same_strict_sign (f (Fin (1 / 1000000))) (f (Fin (p / 2))) ->
    documented_bracket p f (1 / 1000000) (p / 2)
| propeller_brake : same_strict_sign (f (Fin (1 / 1000000))) (f (Fin (p / 2))) ->
    neg (f (Fin (- p / 4))) -> pos (f (Fin (- (1 / 1000000)))) ->
    documented_bracket p f (- p / 4) (- (1 / 1000000))
| beyond_90 : same_strict_sign (f (Fin (1 / 1000000))) (f (Fin (p / 2))) ->
    ~ (neg (f (Fin (- p / 4))) /\ pos (f (Fin (- (1 / 1000000))))) ->
    documented_bracket p f (p / 2) (p - 1 / 1000000).

(** Parts of the contract of scipy.optimize.brentq. *)
Definition root_inside (bq : rootfinder fl) : Prop :=
  forall f a b x, a <= b -> bq f (Fin a) (Fin b) = Ok x -> exists v, x = Fin v /\ a <= v <= b.
Definition rejects_same_sign (bq : rootfinder fl) : Prop :=
  forall f a b, same_strict_sign (f (Fin a)) (f (Fin b)) -> bq f (Fin a) (Fin b) = Raise ValueError.
Definition accepts_sign_change (bq : rootfinder fl) : Prop :=
  forall f a b, a <= b -> (forall v, a <= v <= b -> exists y, fval (f (Fin v)) = Some y) ->
    (pos (f (Fin a)) /\ neg (f (Fin b))) \/ (neg (f (Fin a)) /\ pos (f (Fin b))) ->
    exists x, bq f (Fin a) (Fin b) = Ok x.

(** Lift and drag resolved into the rotor frame: lift is perpendicular to the relative wind, drag
    along it; the relative wind makes the angle phi with the rotor plane. Components (normal, tangential). *)
Definition resolve (L D phi : R) : R * R :=
  (L * cos phi + D * sin phi, L * sin phi - D * cos phi).

(** Dynamic pressure. *)
Definition dynamic_pressure (rho W : R) : R := rho * W ^ 2 / 2.

(** The object with another stored pitch angle: the only attribute that a forward-mode call changes. *)
Definition repitch (b : blade) (pitch : R) : blade := set_call b (b_theta b) pitch.

(** What a call of evaluate returns to its caller, without the changed object. *)
Definition returned {X Y} (r : res (blade * X * Y)) : res (X * Y) :=
  bind r (fun x => Ok (snd (fst x), snd x)).

(** The states an object can be in after any sequence of calls. A call that raises an exception
    leaves the object with the pitch angle of the point of failure. *)
Inductive reachable (npi : R) (bq : rootfinder fl) (b0 : blade) : blade -> Prop :=
| new : reachable npi bq b0 b0
| after_evaluate b conds b' outs w : reachable npi bq b0 b -> evaluate npi bq b conds = Ok (b', outs, w) ->
    reachable npi bq b0 b'
| after_loads b U Om p az b' ls : reachable npi bq b0 b -> distributedAeroLoads npi bq b U Om p az = Ok (b', ls) ->
    reachable npi bq b0 b'
| after_exception b p : reachable npi bq b0 b -> reachable npi bq b0 (repitch b p).

(** The same object with another number of azimuthal sectors. *)
Definition with_sectors (b : blade) (n : nat) : blade :=
  mkBlade (b_r b) (b_chord b) (b_theta b) (b_af b) (b_Rhub b) (b_Rtip b) (b_B b) (b_rho b) (b_mu b)
    (b_precone b) (b_tilt b) (b_yaw b) (b_shearExp b) (b_hubHt b) (b_opts b) (b_iterRe b)
    (b_precurve b) (b_precurveTip b) (b_presweep b) (b_presweepTip b) (b_rotorR b) n
    (b_inverse b) (b_cl b) (b_cd b) (b_alpha b) (b_pitch b).

(** The same object with other chord, twist and airfoil lists. *)
Definition with_sections (b : blade) (chord : list R) (theta : list fl) (af : list (airfoil fl)) : blade :=
  mkBlade (b_r b) chord theta af (b_Rhub b) (b_Rtip b) (b_B b) (b_rho b) (b_mu b)
    (b_precone b) (b_tilt b) (b_yaw b) (b_shearExp b) (b_hubHt b) (b_opts b) (b_iterRe b)
    (b_precurve b) (b_precurveTip b) (b_presweep b) (b_presweepTip b) (b_rotorR b) (b_nSector b)
    (b_inverse b) (b_cl b) (b_cd b) (b_alpha b) (b_pitch b).

(** No tilt, yaw or wind shear. *)
Definition axisymmetric (b : blade) : Prop := b_tilt b = 0 /\ b_yaw b = 0 /\ b_shearExp b = 0.

(** Agreement of two optional outputs in a quantity. *)
Definition agree (f : outputs -> R) (x y : option outputs) : Prop :=
  match x, y with Some a, Some b => f a = f b | None, None => True | _, _ => False end.
