(** Vocabulary of the effect of losses on the induction (C135). *)
From Coq Require Import Reals.
From Verif Require Import Num Bem IndSpec.
Open Scope R_scope.

(** The same options, except that losses may be switched on. *)
Definition more_losses (o o' : bemopts) : Prop :=
  useCd o' = useCd o /\ wakerotation o' = wakerotation o /\ (tipLoss o = true -> tipLoss o' = true) /\ (hubLoss o = true -> hubLoss o' = true).

(** A station at r of a blade whose hub and tip move towards it. *)
Definition closer (r Rhub Rtip Rhub' Rtip' : R) : Prop := 0 < Rhub <= Rhub' /\ Rhub' < r < Rtip' /\ Rtip' <= Rtip.

(** Some loss that counts is new, or its end of the blade has moved. *)
Definition loss_felt (o o' : bemopts) (Rhub Rtip Rhub' Rtip' : R) : Prop :=
  (tipLoss o' = true /\ (tipLoss o = false \/ Rtip' < Rtip)) \/ (hubLoss o' = true /\ (hubLoss o = false \/ Rhub < Rhub')).
