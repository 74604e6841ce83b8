(** Model of DirectionVector.fromArray and DirectionVector.toArray, ccblade/csystem.py:58-81.

    Unlike in CSystem.v the components are numpy arrays here: of dimension 0 (a number) or 1. Components of higher
    dimension are not modelled. Derivative dictionaries are left out: neither function reads them. *)
From Coq Require Import Reals List Bool Arith.
From Verif Require Import Prelim.
Import ListNotations.
Open Scope R_scope.

(** A component as stored by the constructor, csystem.py:34-36: [np.array] of a number or of a sequence. *)
Inductive comp := Sc (x : R) | Ar (l : list R).

(** The components x, y, z of a vector, csystem.py:34-36. *)
Record cvec := mkCV { cx : comp; cy : comp; cz : comp }.

(** A numpy array of dimension 1, or of dimension 2 given by its rows. *)
Inductive ndarray := A1 (l : list R) | A2 (rows : list (list R)).

(** [array[i]] for i >= 0. *)
Definition getitem (a : ndarray) (i : nat) : res comp :=
  match a with
  | A1 l => match nth_error l i with Some x => Ok (Sc x) | None => Raise IndexError end
  | A2 rows => match nth_error rows i with Some r => Ok (Ar r) | None => Raise IndexError end
  end.

(** DirectionVector.fromArray, csystem.py:58-69. *)
Definition fromArray (a : ndarray) : res cvec :=
  do x <- getitem a 0; do y <- getitem a 1; do z <- getitem a 2; Ok (mkCV x y z).

(** The column that [np.c_] makes of an argument: a number becomes a column of one entry. *)
Definition column (c : comp) : list R := match c with Sc x => [x] | Ar l => l end.

(** DirectionVector.toArray, csystem.py:71-81: [np.c_[x, y, z]] puts the columns side by side; the result always has
    dimension 2, and columns of different lengths raise a ValueError. *)
Definition toArray (v : cvec) : res ndarray :=
  let X := column (cx v) in
  let Y := column (cy v) in
  let Z := column (cz v) in
  if (length X =? length Y)%nat && (length X =? length Z)%nat
  then Ok (A2 (map (fun t => [fst t; fst (snd t); snd (snd t)]) (combine X (combine Y Z))))
  else Raise ValueError.
