(** Property C104: what inverse twist design needs.

    Anchors: ccblade/ccblade_component.py CCBladeTwist.compute. *)
From Coq Require Import Reals Bool Arith List Lra Lia.
From Verif Require Import Prelim Num Bem Blade BladeSpec FlProofs Component TwistWitness TwistFail PropsStation PropsComponent.
Import ListNotations.
Open Scope R_scope.

(** C104. With no station thinner than 95 percent of the chord, inverse design ends in an IndexError, whatever the solver does. *)
Theorem C104_thick_blade : forall npi bq alpha1 smooth o i b prev, wo_inverse o = true -> wo_flag o = false ->
  construct (wi_args i) = Ok b -> design_inputs i -> (forall t, In t (wi_rthick i) -> 95 <= t) ->
  twist_compute npi bq alpha1 smooth o i prev = Raise IndexError.
Proof. exact thick_fails. Qed.
Print Assumptions C104_thick_blade.

(** C104. Asking for inverse design and twist optimisation together is refused with an Exception. *)
Theorem C104_both_refused : forall npi bq alpha1 smooth o i b prev, wo_inverse o = true -> wo_flag o = true ->
  construct (wi_args i) = Ok b -> twist_compute npi bq alpha1 smooth o i prev = Raise OtherException.
Proof. exact both_fail. Qed.
Print Assumptions C104_both_refused.

(** C104. So an inverse design that gives outputs had twist optimisation off and a station thinner than 95 percent. *)
Theorem C104_needed : forall npi bq alpha1 smooth o i prev out, wo_inverse o = true -> twist_compute npi bq alpha1 smooth o i prev = Ok out ->
  wo_flag o = false /\ exists t, In t (wi_rthick i) /\ t < 95.
Proof. exact design_needs. Qed.
Print Assumptions C104_needed.

Example C104_example : forall npi bq alpha1 smooth prev,
  let i := w_in (fun _ _ => (Fin 1, Fin 0)) [0; 0] [0; 0] [100; 95] in
  construct (wi_args i) = Ok (w_blade (fun _ _ => (Fin 1, Fin 0))) /\ design_inputs i /\
  twist_compute npi bq alpha1 smooth (inverse false) i prev = Raise IndexError /\
  twist_compute npi bq alpha1 smooth (mkTwistOpts true true false 0) i prev = Raise OtherException.
Proof.
  intros. pose proof PI_RGT_0 as HP. assert (EC : construct (wi_args i) = Ok (w_blade (fun _ _ => (Fin 1, Fin 0)))) by apply w_construct.
  assert (ED : design_inputs i).
  { assert (F : finite_af (fun _ _ => (Fin 1, Fin 0))) by (intros x Re; exists 1, 0; split; apply rep_Fin).
    split; [cbn; lia|]. split; [|split; [cbn; lia|]].
    - assert (Z : 1 / 10000 <= Rabs (0 - PI)) by (rewrite Rabs_left1 by lra; pose proof PI2_1; lra). intros a [<-|[<-|[]]]; exact Z.
    - constructor; [exact F|]. constructor; [exact F|]. constructor. }
  split; [exact EC|]. split; [exact ED|]. split.
  - eapply C104_thick_blade; [reflexivity|reflexivity|exact EC|exact ED|]. intros t [<-|[<-|[]]]; lra.
  - eapply C104_both_refused; [reflexivity|reflexivity|exact EC].
Qed.

Example C104_needed_example : exists out, twist_compute (31 / 10) midpoint (fun _ => Ok 0) (fun _ _ l => l) (inverse false) (w_in (fun al Re => match al, Re with Fin x, Fin y => (Fin x, Fin 0) | _, _ => (Fin 0, Fin 0) end) [0; 0] [0; 0] [100; 0]) (0, 0, 0, 0) = Ok out.
Proof.
  assert (Z : 1 / 10000 <= Rabs (0 - PI)) by (pose proof PI_RGT_0; rewrite Rabs_left1 by lra; pose proof PI2_1; lra).
  exact (inverse_compute_ok (31 / 10) midpoint midpoint_tame (fun _ => Ok 0) (fun x _ => x) (fun _ _ => 0) 0 0 Z Z (fun _ _ l => l) 100 (0, 0, 0, 0)).
Qed.
