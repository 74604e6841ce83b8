(** Model of airfoilprep.py: class Polar (blend) and class Airfoil (constructor, getPolar, blend,
    interpToCommonAlpha, createDataGrid), /repo/ccblade/airfoilprep.py:30-100, 515-532, 596-666,
    736-762, 807-844.

    Simplifications: numpy arrays of floats are lists of exact reals; [copy.deepcopy] is the identity
    (values are immutable here); an Airfoil is its list of polars, [polar_type] (the subclass to
    instantiate) and the attributes [cdmax], [A], [B], [cm0] cached on a Polar are not kept; integer
    arrays are not modelled (np.array of a list of Python ints has dtype int). *)
From Coq Require Import Reals List Bool Lra Lia.
From Verif Require Import Prelim Interp.
Import ListNotations.
Open Scope R_scope.

(** Polar.__init__, airfoilprep.py:37-58 (no check that the arrays have one length). *)
Record polar := mkPolar { p_Re : R; p_alpha : list R; p_cl : list R; p_cd : list R; p_cm : list R }.

(** numpy.interp on an array of abscissae: ValueError when the table is empty or ragged. *)
Definition np_interp (xs xp fp : list R) : res (list R) :=
  if negb (Nat.eqb (length xp) (length fp)) then Raise ValueError
  else match xp with
       | [] => Raise ValueError
       | _ => Ok (map (fun x => interp x xp fp) xs)
       end.

(** Insertion into a sorted list without duplicates. *)
Fixpoint uinsert (x : R) (l : list R) : list R :=
  match l with
  | [] => [x]
  | y :: l' => if rltb x y then x :: l else if reqb x y then l else y :: uinsert x l'
  end.

(** numpy.unique: the sorted distinct values (by insertion; numpy's sorting algorithm is not modelled). *)
Definition unique (l : list R) : list R := fold_right uinsert [] l.

(** numpy.union1d (a, b) = numpy.unique of the concatenation. *)
Definition union1d (a b : list R) : list R := unique (a ++ b).

(** ndarray.min / ndarray.max: ValueError on an empty array. *)
Definition amin (l : list R) : res R :=
  match l with [] => Raise ValueError | x :: l' => Ok (fold_left Rmin l' x) end.
Definition amax (l : list R) : res R :=
  match l with [] => Raise ValueError | x :: l' => Ok (fold_left Rmax l' x) end.

(** Elementwise a + w * (b - a). *)
Definition lerp (w a b : R) : R := a + w * (b - a).
Definition map2 {A B C} (f : A -> B -> C) (l : list A) (m : list B) : list C :=
  map (fun p => f (fst p) (snd p)) (combine l m).

(** Polar.blend, airfoilprep.py:60-100. *)
Definition polar_blend (self other : polar) (weight : R) : res polar :=
  let alpha := union1d (p_alpha self) (p_alpha other) in
  do lo1 <- amin (p_alpha self);
  do lo2 <- amin (p_alpha other);
  let min_alpha := Rmax lo1 lo2 in
  do hi1 <- amax (p_alpha self);
  do hi2 <- amax (p_alpha other);
  let max_alpha := Rmin hi1 hi2 in
  let alpha := filter (fun a => rleb min_alpha a && rleb a max_alpha) alpha in
  do cl1 <- np_interp alpha (p_alpha self) (p_cl self);
  do cl2 <- np_interp alpha (p_alpha other) (p_cl other);
  do cd1 <- np_interp alpha (p_alpha self) (p_cd self);
  do cd2 <- np_interp alpha (p_alpha other) (p_cd other);
  do cm1 <- np_interp alpha (p_alpha self) (p_cm self);
  do cm2 <- np_interp alpha (p_alpha other) (p_cm other);
  Ok (mkPolar (lerp weight (p_Re self) (p_Re other)) alpha
        (map2 (lerp weight) cl1 cl2) (map2 (lerp weight) cd1 cd2) (map2 (lerp weight) cm1 cm2)).

(** Stable insertion by Reynolds number: Python's sorted(polars, key=lambda p: p.Re). *)
Fixpoint pinsert (p : polar) (l : list polar) : list polar :=
  match l with
  | [] => [p]
  | q :: l' => if rleb (p_Re p) (p_Re q) then p :: l else q :: pinsert p l'
  end.
Definition psort (l : list polar) : list polar := fold_right pinsert [] l.

(** An Airfoil is its attribute [polars]. *)
Definition airfoil := list polar.

(** Airfoil.__init__, airfoilprep.py:518-532: polars[0] on line 532 raises IndexError for []. *)
Definition mk_airfoil (polars : list polar) : res airfoil :=
  match polars with [] => Raise IndexError | _ => Ok (psort polars) end.

(** numpy.searchsorted (l, x), side left, for the sorted l it is called with: number of leading entries < x. *)
Fixpoint searchsorted (l : list R) (x : R) : nat :=
  match l with
  | [] => 0
  | y :: l' => if rltb y x then S (searchsorted l' x) else 0
  end.

Definition polar0 : polar := mkPolar 0 [] [] [] [].
Definition lastp (l : list polar) : polar := last l polar0.

(** Airfoil.getPolar, airfoilprep.py:596-628. *)
Definition getPolar (p : airfoil) (Re : R) : res polar :=
  match p with
  | [] => Raise IndexError
  | p0 :: _ =>
      if rleb Re (p_Re p0) then Ok p0
      else if rleb (p_Re (lastp p)) Re then Ok (lastp p)
      else
        let Relist := map p_Re p in
        let i := searchsorted Relist Re in
        let weight := (Re - nth (i - 1) Relist 0) / (nth i Relist 0 - nth (i - 1) Relist 0) in
        polar_blend (nth (i - 1) p polar0) (nth i p polar0) weight
  end.

(** A loop that collects one result per element and stops at the first exception. *)
Fixpoint mapM {A B} (f : A -> res B) (l : list A) : res (list B) :=
  match l with
  | [] => Ok []
  | x :: l' => do y <- f x; do ys <- mapM f l'; Ok (y :: ys)
  end.

(** Airfoil.blend, airfoilprep.py:630-666. *)
Definition airfoil_blend (self other : airfoil) (weight : R) : res airfoil :=
  let Relist := union1d (map p_Re self) (map p_Re other) in
  do polars <- mapM (fun Re =>
    do p1 <- getPolar self Re;
    do p2 <- getPolar other Re;
    polar_blend p1 p2 weight) Relist;
  mk_airfoil polars.

(** One polar resampled on a grid, airfoilprep.py:756-760. *)
Definition resample (alpha : list R) (p : polar) : res polar :=
  do cl <- np_interp alpha (p_alpha p) (p_cl p);
  do cd <- np_interp alpha (p_alpha p) (p_cd p);
  do cm <- np_interp alpha (p_alpha p) (p_cm p);
  Ok (mkPolar (p_Re p) alpha cl cd cm).

(** The union of all angles of attack, airfoilprep.py:747-751. *)
Definition common_alpha (af : airfoil) : list R := fold_left (fun a p => union1d a (p_alpha p)) af [].

(** Airfoil.interpToCommonAlpha, airfoilprep.py:736-762; [None] is the default argument. *)
Definition interpToCommonAlpha (af : airfoil) (alpha : option (list R)) : res airfoil :=
  let alpha := match alpha with None => common_alpha af | Some a => a end in
  do polars <- mapM (resample alpha) af;
  mk_airfoil polars.

(** A 2-D numpy array: shape and entries. *)
Record mat := mkMat { m_rows : nat; m_cols : nat; m_at : nat -> nat -> R }.
Definition zeros (r c : nat) : mat := mkMat r c (fun _ _ => 0).

(** M[:, j] = v: IndexError for a column out of range, ValueError when v cannot be broadcast
    (length neither the row count nor 1). *)
Definition set_col (M : mat) (j : nat) (v : list R) : res mat :=
  if negb (Nat.ltb j (m_cols M)) then Raise IndexError
  else if Nat.eqb (length v) (m_rows M)
  then Ok (mkMat (m_rows M) (m_cols M) (fun a b => if Nat.eqb b j then nth a v 0 else m_at M a b))
  else if Nat.eqb (length v) 1
  then Ok (mkMat (m_rows M) (m_cols M) (fun a b => if Nat.eqb b j then nth 0 v 0 else m_at M a b))
  else Raise ValueError.

(** The loop over enumerate(polarList), airfoilprep.py:839-842. *)
Fixpoint fill_grid (idx : nat) (ps : list polar) (cl cd cm : mat) : res (mat * mat * mat) :=
  match ps with
  | [] => Ok (cl, cd, cm)
  | p :: ps' =>
      do cl' <- set_col cl idx (p_cl p);
      do cd' <- set_col cd idx (p_cd p);
      do cm' <- set_col cm idx (p_cm p);
      fill_grid (S idx) ps' cl' cd' cm'
  end.

(** Airfoil.createDataGrid, airfoilprep.py:807-844. *)
Definition createDataGrid (af : airfoil) : res (list R * list R * (mat * mat * mat)) :=
  do polarList <- interpToCommonAlpha af None;
  match polarList with
  | [] => Raise IndexError
  | p0 :: _ =>
      let alpha := p_alpha p0 in
      let Re := map p_Re polarList in
      let z := zeros (length alpha) (length Re) in
      do g <- fill_grid 0 polarList z z z;
      Ok (alpha, Re, g)
  end.
