(** Vocabulary of blending in steps (C127, C128). *)
From Coq Require Import Reals List.
From Verif Require Import Prelim Polar InterpSpec PolarSpec.
Import ListNotations.
Open Scope R_scope.

(** All polars of an airfoil are given at the same angles. *)
Definition one_grid (af : list polar) : Prop := forall p q, In p af -> In q af -> p_alpha p = p_alpha q.

(** Going from one airfoil towards another by the fraction u, then from there by w of the remaining way, is going by 1 - (1 - u) (1 - w). *)
Definition airfoil_steps_always : Prop := forall a1 a2 b u w c, a1 <> [] -> a2 <> [] -> increasing (map p_Re a1) -> increasing (map p_Re a2) ->
  Forall wf_polar (a1 ++ a2) -> Forall (fun p => covers p c) (a1 ++ a2) -> one_grid (a1 ++ a2) -> 0 < u < 1 -> 0 < w < 1 ->
  airfoil_blend a1 a2 u = Ok b -> airfoil_blend b a2 w = airfoil_blend a1 a2 (1 - (1 - u) * (1 - w)).
