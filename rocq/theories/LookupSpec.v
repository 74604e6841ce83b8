(** Vocabulary of looking up polars by Reynolds number (C131, C132). *)
From Coq Require Import Reals List.
From Verif Require Import Prelim Polar InterpSpec PolarSpec BlendSpec.
Import ListNotations.
Open Scope R_scope.

(** No coefficient in the list jumps by more than L times the distance of the Reynolds numbers. *)
Definition slopes_at_most (L : R) (Rs ys : list R) : Prop := forall j, (S j < length Rs)%nat ->
  Rabs (nth (S j) ys 0 - nth j ys 0) <= L * (nth (S j) Rs 0 - nth j Rs 0).

(** The coefficient that getPolar gives at one angle is a continuous function of the Reynolds number, wherever the angle is covered. *)
Definition varies_continuously : Prop := forall af k a c r p v, af <> [] -> increasing (map p_Re af) -> Forall wf_polar af -> Forall (fun q => covers q c) af ->
  getPolar af r = Ok p -> covers p a -> value k p a v ->
  forall eps, 0 < eps -> exists delta, 0 < delta /\ forall r' p' v', Rabs (r' - r) < delta -> getPolar af r' = Ok p' -> value k p' a v' -> Rabs (v' - v) < eps.
