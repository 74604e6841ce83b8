(** Vocabulary for polars whose columns do not fit (C95). *)
From Coq Require Import Reals List.
From Verif Require Import Prelim Polar.
Import ListNotations.

(** At least one angle, and one coefficient of each kind per angle. *)
Definition tabulated (p : polar) : Prop :=
  p_alpha p <> [] /\ length (p_cl p) = length (p_alpha p) /\ length (p_cd p) = length (p_alpha p) /\ length (p_cm p) = length (p_alpha p).
