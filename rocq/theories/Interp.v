(** Model of numpy.interp for the calls made by the code.

    numpy's C routine (arr_interp) returns fp[0] left of xp[0], fp[-1] right of
    xp[-1], and otherwise locates by bisection the last j with xp[j] <= x and
    returns fp[j] if xp[j] == x or j is the last index, else
    (fp[j+1]-fp[j])/(xp[j+1]-xp[j])*(x-xp[j]) + fp[j]. For non-decreasing xp (the
    only case numpy documents) the scan below finds the same j. *)
From Coq Require Import Reals List Lra Lia.
From Verif Require Import Prelim.
Import ListNotations.
Open Scope R_scope.

(** Value on the segment from (x0, f0) to (x1, f1). *)
Definition seg (x0 f0 x1 f1 x : R) : R :=
  if reqb x0 x then f0 else (f1 - f0) / (x1 - x0) * (x - x0) + f0.

(** Scan for the last node not right of x, given x0 <= x for the first node. *)
Fixpoint interp_from (x x0 f0 : R) (xp fp : list R) : R :=
  match xp, fp with
  | x1 :: xp', f1 :: fp' =>
      if rltb x x1 then seg x0 f0 x1 f1 x else interp_from x x1 f1 xp' fp'
  | _, _ => f0
  end.

(** numpy.interp (x, xp, fp), default left/right; xp and fp of the same positive length. *)
Definition interp (x : R) (xp fp : list R) : R :=
  match xp, fp with
  | x0 :: xp', f0 :: fp' => if rltb x x0 then f0 else interp_from x x0 f0 xp' fp'
  | _, _ => 0
  end.
