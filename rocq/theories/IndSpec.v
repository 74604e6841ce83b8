(** Specification vocabulary for the induction properties: blade-element and
    momentum theory written down from the literature (Ning 2014, Buhl 2005),
    without reference to the code's intermediate variables. *)
From Coq Require Import Reals.
From Verif Require Import Num Bem.
Open Scope R_scope.

(** Local solidity. *)
Definition solidity (B : nat) (chord r : R) : R := INR B * chord / (2 * PI * r).

(** Normal and tangential force coefficients, with or without drag. *)
Definition coef_n (usecd : bool) (cl cd phi : R) : R :=
  cl * cos phi + (if usecd then cd * sin phi else 0).
Definition coef_t (usecd : bool) (cl cd phi : R) : R :=
  cl * sin phi - (if usecd then cd * cos phi else 0).

(** Prandtl's loss factor for a station at distance d from the edge, reference radius l. *)
Definition prandtl (B : nat) (d l phi : R) : R :=
  2 / PI * acos (exp (- (INR B * d / (2 * l * sin phi)))).

(** Combined loss factor. *)
Definition lossF (o : bemopts) (B : nat) (r Rhub Rtip phi : R) : R :=
  (if tipLoss o then prandtl B (Rtip - r) r phi else 1) *
  (if hubLoss o then prandtl B (r - Rhub) Rhub phi else 1).

(** Loading parameters k and k'. *)
Definition loading (o : bemopts) (B : nat) (r chord Rhub Rtip phi cl cd : R) : R :=
  solidity B chord r * coef_n (useCd o) cl cd phi / (4 * lossF o B r Rhub Rtip phi * sin phi ^ 2).
Definition loading_t (o : bemopts) (B : nat) (r chord Rhub Rtip phi cl cd : R) : R :=
  solidity B chord r * coef_t (useCd o) cl cd phi / (4 * lossF o B r Rhub Rtip phi * sin phi * cos phi).

(** Thrust coefficient of the annulus from the blade element. *)
Definition blade_CT (o : bemopts) (B : nat) (r chord phi cl cd a : R) : R :=
  solidity B chord r * coef_n (useCd o) cl cd phi * (1 - a) ^ 2 / sin phi ^ 2.

(** Momentum theory with losses, and Buhl's empirical curve. *)
Definition momentum_CT (F a : R) : R := 4 * a * F * (1 - a).
Definition buhl_CT (F a : R) : R := 8 / 9 + (4 * F - 40 / 9) * a + (50 / 9 - 4 * F) * a ^ 2.

(** A station strictly between hub and tip, inflow angle in (0, 180) degrees. *)
Definition inside (B : nat) (r Rhub Rtip phi : R) : Prop :=
  (1 <= B)%nat /\ 0 < Rhub < r /\ r < Rtip /\ 0 < phi < PI.

(** Outside the guarded band of the empirical formula (bem.f90:91). *)
Definition band (F k : R) : R := 2 * F * k - (25 / 9 - 2 * F).

Definition out_fzero {A} (x : A * A * A) : A := fst (fst x).
Definition out_a {A} (x : A * A * A) : A := snd (fst x).
Definition out_ap {A} (x : A * A * A) : A := snd x.
