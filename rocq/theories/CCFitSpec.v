(** Vocabulary for the accuracy of the fitted airfoil data (C78, C99, C100): what scipy's RectBivariateSpline promises. *)
From Coq Require Import Reals List.
From Verif Require Import Prelim InterpSpec Polar CCAirfoil.
Import ListNotations.
Open Scope R_scope.

Definition total (n : nat) (f : nat -> R) : R := fold_right Rplus 0 (map f (seq 0 n)).

(** Sum over the grid of the squared differences between the data z and the surface f. *)
Definition misfit (x y : list R) (z : nat -> nat -> R) (f : R -> R -> R) : R :=
  total (length x) (fun i => total (length y) (fun j => (z i j - f (nth i x 0) (nth j y 0)) ^ 2)).

Definition fitter := list R -> list R -> mat -> nat -> nat -> R -> res spline.

(** The shape of the data for these angles and Reynolds numbers. *)
Definition grid_shape (alpha Re : list R) (M : mat) : Prop := m_rows M = length alpha /\ m_cols M = Nat.max 1 (length Re).
(** Increasing grids with more points than the order in each direction are accepted. *)
Definition accepts (rbs : fitter) : Prop :=
  forall x y M kx ky s, increasing x -> increasing y -> (1 <= kx <= 5)%nat -> (1 <= ky <= 5)%nat ->
    (kx < length x)%nat -> (ky < length y)%nat -> m_rows M = length x -> m_cols M = length y -> 0 <= s ->
    exists sp, rbs x y M kx ky s = Ok sp.
(** The spline through identical columns is constant across them. *)
Definition flat_fit (rbs : fitter) : Prop :=
  forall x y M kx ky s sp, rbs x y M kx ky s = Ok sp ->
    (forall i j j', (j < m_cols M)%nat -> (j' < m_cols M)%nat -> m_at M i j = m_at M i j') ->
    forall a r r', sp_ev sp a r = sp_ev sp a r'.

(** RectBivariateSpline: "Positive smoothing factor defined for estimation condition: sum((z[i]-f(x[i], y[i]))**2) <= s".
    FITPACK meets it up to one part in a thousand (fpregr.f, tol). *)
Definition smooths (rbs : fitter) : Prop := forall x y M kx ky s sp, rbs x y M kx ky s = Ok sp ->
  misfit x y (m_at M) (sp_ev sp) <= s * (1 + 1 / 1000).

(** Polynomials of degree kx in the first and ky in the second argument. *)
Definition polynomial (kx ky : nat) (f : R -> R -> R) : Prop := exists c : nat -> nat -> R,
  forall a r, f a r = total (S kx) (fun i => total (S ky) (fun j => c i j * a ^ i * r ^ j)).

(** f is the polynomial of these degrees with the least misfit. *)
Definition best_polynomial (x y : list R) (z : nat -> nat -> R) (kx ky : nat) (f : R -> R -> R) : Prop :=
  polynomial kx ky f /\ forall g, polynomial kx ky g -> misfit x y z f <= misfit x y z g.

(** FITPACK (regrid.f, ier = -2): when the least-squares polynomial already meets the condition it is the answer. *)
Definition tries_polynomials_first (rbs : fitter) : Prop := forall x y M kx ky s sp f, rbs x y M kx ky s = Ok sp ->
  best_polynomial x y (m_at M) kx ky f -> misfit x y (m_at M) f <= s ->
  forall i j, (i < length x)%nat -> (j < length y)%nat ->
    sp_ev sp (nth i x 0) (nth j y 0) = f (nth i x 0) (nth j y 0).

(** All coefficients agree within the accuracy of the three fits: 0.3164, 0.0317 and 0.01001. *)
Definition near (bound a b : R) : Prop := Rabs (a - b) <= bound.
Definition cl_bound : R := 791 / 2500.
Definition cd_bound : R := 317 / 10000.
Definition cm_bound : R := 1001 / 100000.
