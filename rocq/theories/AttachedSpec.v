(** Vocabulary of the uniqueness of the inflow angle (C134). *)
From Coq Require Import Reals List.
From Verif Require Import Prelim Num Bem Blade IndSpec BladeSpec FlProofs StationExist InverseForward.
Open Scope R_scope.

(** A root finder that returns zeros inside the bracket it is given. *)
Definition solves (bq : rootfinder fl) : Prop := root_inside bq /\ finds_zeros bq.

(** No drag in the induction, no tip and hub loss. *)
Definition plain (o : bemopts) : Prop := useCd o = false /\ tipLoss o = false /\ hubLoss o = false.

(** The loading is at most 2/3, or far enough from where the denominator of the empirical formula vanishes for the code to
    use that formula. *)
Definition clear_of_guard (o : bemopts) (B : nat) (r chord Rhub Rtip phi cl cd : R) : Prop :=
  2 / 3 < loading o B r chord Rhub Rtip phi cl cd -> 1 / 1000000 <= Rabs (band (lossF o B r Rhub Rtip phi) (loading o B r chord Rhub Rtip phi cl cd)).

(** Lift does not fall as the angle of attack grows from a to b. *)
Definition rising (cl : R -> R) (a b : R) : Prop := forall x y, a < x -> x <= y -> y < b -> cl x <= cl y.

(** Two root finders that both find an inflow angle in the first bracket of a section give the same loads. *)
Definition same_loads : Prop := forall npi bq bq' rt (sc : sect fl) x x' l l', 3 < npi < PI -> solves bq -> solves bq' -> rt_iterRe rt = 1%nat ->
  documented_bracket npi (errf rt sc 0) (1 / 1000000) (npi / 2) ->
  bq (errf rt sc 0) (Fin (1 / 1000000)) (Fin (npi / 2)) = Ok x -> bq' (errf rt sc 0) (Fin (1 / 1000000)) (Fin (npi / 2)) = Ok x' ->
  solve_station npi bq rt true sc = Ok l -> solve_station npi bq' rt true sc = Ok l' -> l = l'.
