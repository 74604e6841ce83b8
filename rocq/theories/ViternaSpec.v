(** Vocabulary for lift and drag outside the data of an extrapolated polar (C124, C125). *)
From Coq Require Import Reals List.
From Verif Require Import Prelim Polar PolarSpec.
Import ListNotations.
Open Scope R_scope.

(** A row of a table: angle (degrees), lift, drag. *)
Definition row : Type := R * R * R.
Definition angle (x : row) : R := fst (fst x).
Definition lift (x : row) : R := snd (fst x).
Definition drag (x : row) : R := snd x.

Definition on_line (x0 y0 x1 y1 x y : R) : Prop := (y - y0) * (x1 - x0) = (y1 - y0) * (x - x0).

(** Rows above the data, which end at the angle [an] with lift [cln]: two functions L and D up to 90 degrees, the same mirrored at
    90 degrees with 0.7 of the lift reversed up to 180 - an, then lift running straight to zero at 180 degrees. *)
Definition upper_row (an cln : R) (L D : R -> R) (x : row) : Prop :=
  let a := angle x in
  an < a <= 180 /\
  (a <= 90 -> lift x = L a /\ drag x = D a) /\
  (90 < a <= 180 - an -> lift x = - (7 / 10) * L (180 - a) /\ drag x = D (180 - a)) /\
  (180 - an < a -> on_line (180 - an) (- (7 / 10) * cln) 180 0 a (lift x) /\ drag x = D (180 - a)).

(** Rows below the data, which start at the angle [a0] with [cl0] and [cd0]: the same functions turned by 180 degrees up to -90,
    mirrored at zero from there, and straight lines between -an and a0 if the data start above -an. *)
Definition lower_row (an cln cdn a0 cl0 cd0 : R) (L D : R -> R) (x : row) : Prop :=
  let a := angle x in
  -180 <= a <= a0 /\
  (a <= -180 + an -> on_line (-180) 0 (-180 + an) (7 / 10 * cln) a (lift x) /\ drag x = D (180 + a)) /\
  (-180 + an < a <= -90 -> lift x = 7 / 10 * L (180 + a) /\ drag x = D (180 + a)) /\
  (-90 < a -> a <= - an \/ a0 <= - an -> lift x = - (7 / 10) * L (- a) /\ drag x = D (- a)) /\
  (- an < a -> - an < a0 -> on_line (- an) (- (7 / 10) * cln) a0 cl0 a (lift x) /\ on_line (- an) cdn a0 cd0 a (drag x)).

(** The drag at 90 degrees: the largest of the data's drag and cdmax, which is 1.11 + 0.018 AR if an aspect ratio is given. *)
Definition peak_drag (p : polar) (cdmax : R) (AR : option R) (m : R) : Prop :=
  let c := match AR with Some ar => 111 / 100 + 18 / 1000 * ar | None => cdmax end in
  c <= m /\ (forall d, In d (p_cd p) -> d <= m) /\ (m = c \/ In m (p_cd p)).
