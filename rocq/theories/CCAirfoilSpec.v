(** Vocabulary for the airfoil properties C62, C63, C78-C80. Nothing here refers to the model. *)
From Coq Require Import Reals List Lra Lia.
Import ListNotations.
Open Scope R_scope.

(** i is the first position of l whose entry is closest to x. *)
Definition closest (l : list R) (x : R) (i : nat) : Prop :=
  (i < length l)%nat /\
  (forall j, (j < length l)%nat -> Rabs (nth i l 0 - x) <= Rabs (nth j l 0 - x)) /\
  (forall j, (j < i)%nat -> Rabs (nth i l 0 - x) < Rabs (nth j l 0 - x)).

(** The k-th angle (radians) of the scan from -20 to 40 degrees in steps of 0.3 degrees, k = 0 .. 200. *)
Definition scan_angle (k : nat) : R := (-20 + 3 / 10 * INR k) * PI / 180.

(** The table (radians) counts as that of a cylinder: the entry closest to 40 degrees does not come after the entry
    closest to -20 degrees. *)
Definition counts_as_cylinder (alpha : list R) : Prop :=
  exists i j, closest alpha (-20 * PI / 180) i /\ closest alpha (40 * PI / 180) j /\ (j <= i)%nat.

(** k is the first position up to n at which f is largest. *)
Definition first_largest (f : nat -> R) (n k : nat) : Prop :=
  (k <= n)%nat /\ (forall j, (j <= n)%nat -> f j <= f k) /\ (forall j, (j < k)%nat -> f j < f k).

(** Ordinate at t of the straight line through the table points number lo and hi. *)
Definition chord (x y : list R) (lo hi : nat) (t : R) : R :=
  nth lo y 0 + (nth hi y 0 - nth lo y 0) * ((t - nth lo x 0) / (nth hi x 0 - nth lo x 0)).
(** How far table point number i lies above that line. *)
Definition above (x y : list R) (lo hi i : nat) : R := nth i y 0 - chord x y lo hi (nth i x 0).

(** k is the first position from lo on and before hi with the largest positive deviation, or lo when no deviation is
    positive. *)
Definition breaks (dev : nat -> R) (lo hi k : nat) : Prop :=
  ((lo <= k < hi)%nat /\ 0 < dev k /\ (forall j, (lo <= j < hi)%nat -> dev j <= dev k) /\
     (forall j, (lo <= j < k)%nat -> dev j < dev k)) \/
  (k = lo /\ forall j, (lo <= j < hi)%nat -> dev j <= 0).

(** i is a strict minimum of c among its neighbours inside the window from lo to before hi. *)
Definition dip (c : list R) (lo hi i : nat) : Prop :=
  (lo <= i < hi)%nat /\ (i = lo \/ nth i c 0 < nth (i - 1) c 0) /\ ((i = hi - 1)%nat \/ nth i c 0 < nth (i + 1) c 0).
(** h is the last one; lo when the window is empty. *)
Definition last_dip (c : list R) (lo hi h : nat) : Prop :=
  ((hi <= lo)%nat /\ h = lo) \/ (dip c lo hi h /\ forall i, dip c lo hi i -> (i <= h)%nat).

(** All entries are equal / some difference between neighbours at an end, or half the difference between
    second neighbours, exceeds tol. *)
Definition constant (l : list R) : Prop := forall i j, (i < length l)%nat -> (j < length l)%nat -> nth i l 0 = nth j l 0.
Definition changes (tol : R) (l : list R) : Prop :=
  tol < Rabs (nth 1 l 0 - nth 0 l 0) \/
  tol < Rabs (nth (length l - 1) l 0 - nth (length l - 2) l 0) \/
  exists i, (i + 2 < length l)%nat /\ tol < Rabs (nth (i + 2) l 0 - nth i l 0) / 2.

(** A polar: angles in degrees, strictly increasing, at least two, and as many coefficients. *)
Definition table_ok (alpha cl cd cm : list R) : Prop :=
  (2 <= length alpha)%nat /\
  (forall i j, (i < j < length alpha)%nat -> nth i alpha 0 < nth j alpha 0) /\
  length cl = length alpha /\ length cd = length alpha /\ length cm = length alpha.

(** Normal force coefficient of table row i. *)
Definition normal (alpha cl cd : list R) (i : nat) : R :=
  nth i cl 0 * cos (nth i alpha 0 * PI / 180) + nth i cd 0 * sin (nth i alpha 0 * PI / 180).

(** The table points lie on or below the straight line through any two others around them. *)
Definition convex (x y : list R) : Prop :=
  forall i j k, (i < j < k)%nat -> (k < length x)%nat ->
    (nth j y 0 - nth i y 0) * (nth k x 0 - nth i x 0) <= (nth k y 0 - nth i y 0) * (nth j x 0 - nth i x 0).

(** No two neighbouring entries are equal. *)
Definition no_plateau (l : list R) : Prop := forall i, (i + 1 < length l)%nat -> nth i l 0 <> nth (i + 1) l 0.

(** The entries of l from position lo on and before position hi. *)
Definition window (l : list R) (lo hi : nat) : list R := skipn lo (firstn hi l).

(** Slope per radian of the normal force coefficient from row i to row i + 1; slope at row j of the rows from lo to
    before hi: one-sided at the ends, in between the mean of the two neighbouring slopes weighted so that a parabola
    gives its tangent. *)
Definition secant (alpha cl cd : list R) (i : nat) : R :=
  (normal alpha cl cd (i + 1) - normal alpha cl cd i) / ((nth (i + 1) alpha 0 - nth i alpha 0) * PI / 180).
Definition row_slope (alpha cl cd : list R) (lo hi j : nat) : R :=
  if Nat.eqb j lo then secant alpha cl cd lo
  else if Nat.eqb j (hi - 1) then secant alpha cl cd (hi - 2)
  else let left := nth j alpha 0 - nth (j - 1) alpha 0 in
       let right := nth (j + 1) alpha 0 - nth j alpha 0 in
       (right * secant alpha cl cd (j - 1) + left * secant alpha cl cd j) / (left + right).

(** Zero-lift angle, drag and moment: by interpolation in the rows from the one closest to -30 degrees to before
    the one closest to 30 degrees, or 0, the drag at the row closest to 0, and 0 for a polar of constant lift. *)
Definition zero_lift (interpolate : R -> list R -> list R -> R) (alpha cl cd cm : list R) (a0 d0 m0 : R) : Prop :=
  (constant cl /\ a0 = 0 /\ m0 = 0 /\ exists z, closest alpha 0 z /\ d0 = nth z cd 0) \/
  (~ constant cl /\ exists l h, closest alpha (-30) l /\ closest alpha 30 h /\ (l < h)%nat /\
     a0 = interpolate 0 (window cl l h) (window alpha l h) /\
     d0 = interpolate 0 (window cl l h) (window cd l h) /\
     m0 = interpolate 0 (window cl l h) (window cm l h)).
