(** Vocabulary of the 3-D correction: least squares, order of corrections, stall delay (C129, C130). *)
From Coq Require Import Reals List.
From Verif Require Import Prelim Polar PolarExt PolarSpec.
Import ListNotations.
Open Scope R_scope.

(** Sum of the squared distances of the points from the line y = m x + c. *)
Fixpoint squares (xs ys : list R) (m c : R) : R :=
  match xs, ys with
  | x :: xs', y :: ys' => (y - (m * x + c)) ^ 2 + squares xs' ys' m c
  | _, _ => 0
  end.

(** A routine that returns a line of least squares whenever there are points with different abscissae. *)
Definition least_squares (polyfit : list R -> list R -> res (R * R)) : Prop := forall xs ys, length xs = length ys ->
  (exists x x', In x xs /\ In x' xs /\ x <> x') ->
  exists m c, polyfit xs ys = Ok (m, c) /\ forall m' c', squares xs ys m c <= squares xs ys m' c'.

(** The line fitted to the lift between two angles. *)
Definition fitted (polyfit : list R -> list R -> res (R * R)) (p : polar) (lo hi m c : R) : Prop :=
  polyfit (map fst (linear_rows p lo hi)) (map snd (linear_rows p lo hi)) = Ok (m, c).

(** At least two angles are tabulated between lo and hi. *)
Definition two_angles (p : polar) (lo hi : R) : Prop := exists a b, In a (p_alpha p) /\ In b (p_alpha p) /\ lo <= a /\ a < b /\ b <= hi.

(** The same polar with the lift multiplied by s. *)
Definition lift_times (s : R) (p : polar) : polar := mkPolar (p_Re p) (p_alpha p) (map (Rmult s) (p_cl p)) (p_cd p) (p_cm p).

(** Where the lift has fallen below the line, the correction raises it, at most to the line. *)
Definition stall_is_delayed : Prop := forall polyfit p rR cr tsr amc lo hi m c b i, least_squares polyfit -> wf_polar p -> two_angles p lo hi -> hi <= amc ->
  0 < rR < 1 -> 0 < cr < 1 -> 0 < tsr -> fitted polyfit p lo hi m c -> 0 < m -> correction3D polyfit p rR cr tsr amc lo hi = Ok b ->
  (i < length (p_alpha p))%nat -> nth i (p_alpha p) 0 <= amc ->
  let line := m * radians (nth i (p_alpha p) 0) + c in
  nth i (p_cl p) 0 < line -> nth i (p_cl p) 0 <= nth i (p_cl b) 0 <= line.
