(** Specification vocabulary for airfoil tables (C43-C53), independent of how the code computes. *)
From Coq Require Import Reals List Permutation ZArith Bool.
From Verif Require Import Prelim Polar InterpSpec.
Import ListNotations.
Open Scope R_scope.

(** A usable polar: at least one angle, strictly increasing angles, one coefficient per angle. *)
Definition wf_polar (p : polar) : Prop :=
  p_alpha p <> [] /\ increasing (p_alpha p) /\
  length (p_cl p) = length (p_alpha p) /\ length (p_cd p) = length (p_alpha p) /\
  length (p_cm p) = length (p_alpha p).

(** First and last entry of a list; the smallest and largest angle of an increasing list. *)
Definition first (l : list R) : R := nth 0 l 0.
Definition final (l : list R) : R := nth (length l - 1) l 0.

(** The angle lies in the range covered by the polar. *)
Definition covers (p : polar) (a : R) : Prop := first (p_alpha p) <= a <= final (p_alpha p).

(** The three coefficient columns of a polar. *)
Inductive column := CL | CD | CM.
Definition col (k : column) (p : polar) : list R :=
  match k with CL => p_cl p | CD => p_cd p | CM => p_cm p end.

(** y is the linearly interpolated coefficient of the polar at angle a. *)
Definition value (k : column) (p : polar) (a y : R) : Prop := polygon_value (p_alpha p) (col k p) a y.

(** The Reynolds numbers appear in non-decreasing order. *)
Definition sorted_by_Re (l : list polar) : Prop := nondecreasing (map p_Re l).

(** The polars of a list at one Reynolds number, in order. *)
Definition at_Re (r : R) (l : list polar) : list polar := filter (fun p => reqb (p_Re p) r) l.

(** Nearest point of [lo, hi]. *)
Definition clamp (lo hi x : R) : R := Rmin hi (Rmax lo x).

(** Data Polar.extrapolate is meant for: between -90 and 90 degrees, and at least two rows unless there is no moment. *)
Definition extendable (p : polar) : Prop :=
  wf_polar p /\ -90 <= first (p_alpha p) /\ final (p_alpha p) <= 90 /\
  (Forall (fun c => c = 0) (p_cm p) \/ (2 <= length (p_alpha p))%nat).

Definition multiple_of_ten (x : R) : Prop := exists z : Z, x = 10 * IZR z.

(** [block] sits inside [l] after [n] entries and before [m] more. *)
Definition block_at (l : list R) (n : nat) (block : list R) (m : nat) : Prop :=
  exists pre post, l = pre ++ block ++ post /\ length pre = n /\ length post = m.

(** The rows of the polar in the linear range, in radians. *)
Definition linear_rows (p : polar) (almin almax : R) : list (R * R) :=
  filter (fun x => rleb (radians almin) (fst x) && rleb (fst x) (radians almax)) (combine (map radians (p_alpha p)) (p_cl p)).

(** The divisors of the extrapolated moment are not zero: the last angle, the denominator of the moment arm, and the
    lift differences used to find the moment at zero lift. *)
Definition moment_regular (p : polar) : Prop :=
  final (p_alpha p) <> 0 /\ final (p_alpha p) < 90 /\
  final (p_cl p) * cos (radians (final (p_alpha p))) + final (p_cd p) * sin (radians (final (p_alpha p))) <> 0 /\
  nth 0 (p_cl p) 0 <> nth 1 (p_cl p) 0 /\
  forall i, (S i < length (p_cl p))%nat -> nth i (p_cl p) 0 <> 0 \/ nth (S i) (p_cl p) 0 <> 0.
