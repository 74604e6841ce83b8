(** Specification vocabulary for tabulated data (C61, C31). *)
From Coq Require Import Reals List.
Import ListNotations.
Open Scope R_scope.

(** Strictly increasing list. *)
Definition increasing (l : list R) : Prop :=
  forall i j, (i < j < length l)%nat -> nth i l 0 < nth j l 0.

Definition nondecreasing (l : list R) : Prop :=
  forall i j, (i < j < length l)%nat -> nth i l 0 <= nth j l 0.

(** y is the value at x of the polygon through the points (xp_i, fp_i), continued constantly. *)
Definition polygon_value (xp fp : list R) (x y : R) : Prop :=
  (x <= nth 0 xp 0 -> y = nth 0 fp 0) /\
  (nth (length xp - 1) xp 0 <= x -> y = nth (length xp - 1) fp 0) /\
  (forall i, (S i < length xp)%nat -> nth i xp 0 <= x <= nth (S i) xp 0 ->
     (y - nth i fp 0) * (nth (S i) xp 0 - nth i xp 0) = (nth (S i) fp 0 - nth i fp 0) * (x - nth i xp 0)).
