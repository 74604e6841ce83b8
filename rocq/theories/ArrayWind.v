(** distributedAeroLoads called with an array of wind speeds, one for each station, as its documentation offers
    (ccblade.py:883-886).

    The array is passed on unchanged to _bem.windcomponents (ccblade.py:817-829), whose argument Uinf is a scalar
    (bem.f90:222). What the generated wrapper does with an array in place of a scalar is not part of the project:
    [conv] is any function from arrays to a number or an exception. *)
From Coq Require Import Reals List.
From Verif Require Import Prelim Num Bem Blade SimilaritySpec.
Import ListNotations.
Open Scope R_scope.

Definition loads_at_speeds (conv : list R -> res R) (npi : R) (bq : rootfinder fl) (b : blade) (Us : list R) (Om p az : R) : res (list (sload fl)) :=
  bind (conv Us) (fun U => section_loads npi bq b U Om p az).

(** What the documentation promises: station i has the load of the wind speed with index i. *)
Definition station_speeds (conv : list R -> res R) (npi : R) (bq : rootfinder fl) : Prop :=
  forall g b Us Om p az, construct g = Ok b -> length Us = length (b_r b) ->
    exists ls, loads_at_speeds conv npi bq b Us Om p az = Ok ls /\
      forall i U ls', nth_error Us i = Some U -> section_loads npi bq b U Om p az = Ok ls' -> nth_error ls i = nth_error ls' i.
