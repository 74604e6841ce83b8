(** Specification vocabulary for thrust and power (C103). *)
From Coq Require Import Reals Bool Arith List.
From Verif Require Import Prelim Num Bem Blade FlProofs SimilaritySpec.
Open Scope R_scope.

(** The flow passes every loaded station from the front, at an inflow angle above 0 and up to 90 degrees. *)
Definition forward_inflow (npi : R) (bq : rootfinder fl) (g : args) (b : blade) (U Om p : R) : Prop :=
  forall ls j l th al, section_loads npi bq b U Om p 0 = Ok ls -> nth_error ls j = Some l -> nth_error (g_theta g) j = Some th ->
  rep (o_alpha l) al -> ~ (rep (o_Np l) 0 /\ rep (o_Tp l) 0) -> 0 < radians (al + th + p) <= npi / 2.
