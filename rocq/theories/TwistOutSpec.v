(** Vocabulary of the outputs of CCBladeTwist (C93). *)
From Coq Require Import Reals List.
From Verif Require Import Prelim Num Bem InterpSpec FlProofs.
Import ListNotations.
Open Scope R_scope.

(** s is the fraction of the span at each station: 0 at the first, 1 at the last. *)
Definition span_fraction (r s : list R) : Prop :=
  length s = length r /\
  forall k, (k < length r)%nat -> nth k s 0 * (nth (length r - 1) r 0 - nth 0 r 0) = nth k r 0 - nth 0 r 0.

(** o holds, at the points x, the values of the polygon through the finite values v over the span fraction. *)
Definition resampled (r x : list R) (v : list fl) (o : option (list R)) : Prop :=
  forall c, Forall2 rep v c ->
    exists s g, o = Some g /\ span_fraction r s /\ length g = length x /\
      forall j, (j < length x)%nat -> polygon_value s c (nth j x 0) (nth j g 0).

(** W with each NaN replaced by zero, everything else unchanged. *)
Definition without_nan (W W' : list fl) : Prop :=
  length W' = length W /\
  forall k, (k < length W)%nat ->
    (nth k W (Fin 1) = NaN -> nth k W' (Fin 1) = Fin 0) /\ (nth k W (Fin 1) <> NaN -> nth k W' (Fin 1) = nth k W (Fin 1)).
