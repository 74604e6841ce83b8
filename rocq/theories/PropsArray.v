(** Property theorems for DirectionVector.fromArray and toArray (C91). *)
From Coq Require Import Reals List Bool Arith Lra Lia.
From Verif Require Import Prelim CSystemArray CSystemArrayProofs.
Import ListNotations.
Open Scope R_scope.

(** C91. toArray gives one row (x, y, z) per direction held, also for a single direction given by numbers; it raises
    a ValueError exactly when the components do not hold the same number of directions. *)
Theorem C91_to_array : forall v : cvec,
  (forall n, holds v n -> exists rows, toArray v = Ok (A2 rows) /\ length rows = n /\
     forall i, (i < n)%nat -> nth i rows [] = direction v i) /\
  (toArray v = Raise ValueError <-> forall n, ~ holds v n).
Proof.
  intros v. split.
  - intros n H. exists (map (direction v) (seq 0 n)). split; [apply to_array, H|]. split.
    + rewrite map_length, seq_length. reflexivity.
    + intros i Hi. rewrite (nth_indep _ [] (direction v 0)) by (rewrite map_length, seq_length; exact Hi).
      rewrite map_nth, seq_nth by exact Hi. reflexivity.
  - split; [|apply to_array_mismatch]. intros E n H. rewrite (to_array v n H) in E. discriminate.
Qed.
Print Assumptions C91_to_array.
Example C91_to_array_example :
  holds (mkCV (Ar [1; 2]) (Ar [3; 4]) (Ar [5; 6])) 2 /\ forall n, ~ holds (mkCV (Ar [1; 2]) (Sc 3) (Sc 4)) n.
Proof. split; [repeat split|]. intros n (A & B & _). simpl in *. lia. Qed.

(** C91. fromArray takes the first three numbers of a one-dimensional array as x, y and z, and the first three ROWS of a
    two-dimensional one; with fewer than three it raises an IndexError. *)
Theorem C91_from_array : forall (l : list R) (rows : list (list R)),
  ((3 <= length l)%nat -> fromArray (A1 l) = Ok (mkCV (Sc (nth 0 l 0)) (Sc (nth 1 l 0)) (Sc (nth 2 l 0)))) /\
  ((3 <= length rows)%nat ->
     fromArray (A2 rows) = Ok (mkCV (Ar (nth 0 rows [])) (Ar (nth 1 rows [])) (Ar (nth 2 rows [])))) /\
  ((length l < 3)%nat -> fromArray (A1 l) = Raise IndexError) /\
  ((length rows < 3)%nat -> fromArray (A2 rows) = Raise IndexError).
Proof.
  intros l rows. repeat split; intros H.
  - destruct l as [|a [|b [|c l]]]; simpl in H; try lia. reflexivity.
  - destruct rows as [|a [|b [|c rest]]]; simpl in H; try lia. reflexivity.
  - destruct l as [|a [|b [|c l]]]; simpl in H; try lia; reflexivity.
  - destruct rows as [|a [|b [|c rest]]]; simpl in H; try lia; reflexivity.
Qed.
Print Assumptions C91_from_array.

(** C91. A vector does not survive the way to an array and back: with fewer than three directions (in particular with
    numbers as components) the call raises an IndexError, with three or more it returns the first three DIRECTIONS as
    x, y and z. *)
Theorem C91_roundtrip_refuted : forall (v : cvec) (n : nat), holds v n ->
  ((n < 3)%nat -> (do a <- toArray v; fromArray a) = Raise IndexError) /\
  ((3 <= n)%nat -> exists w, (do a <- toArray v; fromArray a) = Ok w /\
     cx w = Ar (direction v 0) /\ cy w = Ar (direction v 1) /\ cz w = Ar (direction v 2)) /\
  ((do a <- toArray v; fromArray a) = Ok v <->
   n = 3%nat /\ at_ (cy v) 0 = at_ (cx v) 1 /\ at_ (cz v) 0 = at_ (cx v) 2 /\ at_ (cz v) 1 = at_ (cy v) 2).
Proof.
  intros v n H. split; [apply roundtrip_short, H|]. split; [|apply roundtrip_iff, H].
  intros L. rewrite (roundtrip_long v n H L). eexists. split; [reflexivity|]. repeat split.
Qed.
Print Assumptions C91_roundtrip_refuted.
Example C91_roundtrip_example :
  holds (mkCV (Sc 1) (Sc 2) (Sc 3)) 1 /\ holds (mkCV (Ar [1; 2; 3]) (Ar [4; 5; 6]) (Ar [7; 8; 9])) 3.
Proof. repeat split. Qed.

(** C91. Nor does an array survive the way to a vector and back: the three numbers come back as one row of a
    two-dimensional array, and an array of three rows comes back transposed. *)
Theorem C91_array_refuted :
  (forall l, length l = 3%nat -> (do v <- fromArray (A1 l); toArray v) = Ok (A2 [l])) /\
  (forall x y z n, length x = n -> length y = n -> length z = n ->
     exists rows, (do v <- fromArray (A2 [x; y; z]); toArray v) = Ok (A2 rows) /\ length rows = n /\
       forall i, (i < n)%nat -> nth i rows [] = [nth i x 0; nth i y 0; nth i z 0]).
Proof.
  split.
  - intros l H. rewrite (three_list l H). reflexivity.
  - intros x y z n Hx Hy Hz. change (do v <- fromArray (A2 [x; y; z]); toArray v) with (toArray (mkCV (Ar x) (Ar y) (Ar z))).
    exact (proj1 (C91_to_array (mkCV (Ar x) (Ar y) (Ar z))) n (conj Hx (conj Hy Hz))).
Qed.
Print Assumptions C91_array_refuted.
