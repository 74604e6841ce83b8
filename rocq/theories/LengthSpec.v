(** Vocabulary for arrays of the wrong length (C94). *)
From Coq Require Import Reals Arith List.
From Verif Require Import Prelim Num Bem Blade.
Import ListNotations.
Open Scope R_scope.

(** precurve or presweep: not given, or with one value per station. *)
Definition right_length (r : list R) (c : option (list R)) : Prop := match c with None => True | Some l => length l = length r end.

(** precurve or presweep that the constructor does not look at too closely: not given, or not empty and either of the
    right length or not ending with the value of the tip. *)
Definition harmless (r : list R) (c : option (list R)) (tip : R) : Prop :=
  match c with None => True | Some l => l <> [] /\ (tip <> last l 0 \/ length l = length r) end.

(** Number of stations for which chord, twist and airfoil are given. *)
Definition complete_stations (g : args) : nat := Nat.min (length (g_chord g)) (Nat.min (length (g_theta g)) (length (g_af g))).
Definition supply (b : blade) : nat := Nat.min (length (b_chord b)) (Nat.min (length (b_theta b)) (length (b_af b))).
