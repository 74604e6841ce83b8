(** When CCBladeTwist cannot design a twist (C104). *)
From Coq Require Import Reals Bool Arith List Lra Lia.
From Verif Require Import Prelim Num Bem Blade BladeSpec FlProofs Component StationProofs.
Import ListNotations.
Open Scope R_scope.

(** Finite coefficients at every finite angle and Reynolds number. *)
Definition finite_af (af : airfoil fl) : Prop := forall x Re, exists cl cd, rep (fst (af (Fin x) (Fin Re))) cl /\ rep (snd (af (Fin x) (Fin Re))) cd.

(** A design angle and an airfoil with finite coefficients for every station; the angle is not the marker pi. *)
Definition design_inputs (i : twist_in) : Prop :=
  (length (g_r (wi_args i)) <= length (wi_aoa_op i))%nat /\ (forall a, In a (wi_aoa_op i) -> 1 / 10000 <= Rabs (a - PI)) /\
  (length (g_r (wi_args i)) <= length (g_af (wi_args i)))%nat /\ Forall finite_af (g_af (wi_args i)).

Lemma pyget_in {X} (l : list X) k : (k < length l)%nat -> exists x, pyget l k = Ok x /\ In x l.
Proof.
  intros H. unfold pyget. destruct (nth_error l k) as [x|] eqn:E; [|apply nth_error_None in E; lia].
  exists x. split; [reflexivity|]. exact (nth_error_In _ _ E).
Qed.

Lemma mapM_total {X Y} (f : X -> res Y) l : (forall x, In x l -> exists y, f x = Ok y) -> exists ys, mapM f l = Ok ys.
Proof.
  induction l as [|x l IH]; intros H; [exists []; reflexivity|]. cbn [mapM].
  destruct (H x (or_introl eq_refl)) as (y & ->). destruct IH as (ys & ->); [intros; apply H; right; assumption|]. cbn [bind]. eauto.
Qed.

Section Fail.
Variable npi : R.
Variable bq : rootfinder fl.
Variable alpha1 : nat -> res R.
Variable smooth : list R -> list R -> list fl -> list fl.

Lemma target_ok o i k : design_inputs i -> (k < length (g_r (wi_args i)))%nat -> exists t, target alpha1 o i k = Ok t.
Proof.
  intros (L1 & HA & L2 & HF) Hk. unfold target.
  destruct (pyget_in (wi_aoa_op i) k ltac:(lia)) as (a & -> & Ia). cbn [bind].
  replace (rltb (Rabs (a - PI)) (1 / 10000)) with false by (symmetry; apply rltb_false; apply HA; exact Ia). cbn [bind].
  destruct (pyget_in (g_af (wi_args i)) k ltac:(lia)) as (af & -> & If). cbn [bind].
  pose proof (proj1 (Forall_forall _ _) HF _ If a (twist_Re i k)) as (cl & cd & H1 & H2).
  destruct (af (Fin a) (Fin (twist_Re i k))) as (x & y). cbn [fst snd] in H1, H2. unfold rep in H1, H2. rewrite H1, H2. eauto.
Qed.

Lemma no_thin l : forall k, (forall t, In t l -> 95 <= t) -> first_thin k l = Raise IndexError.
Proof.
  induction l as [|t l IH]; intros k H; [reflexivity|]. cbn [first_thin].
  replace (rltb t 95) with false by (symmetry; apply rltb_false; apply H; left; reflexivity). apply IH. intros; apply H; right; assumption.
Qed.

Lemma thick_fails o i b prev : wo_inverse o = true -> wo_flag o = false -> construct (wi_args i) = Ok b -> design_inputs i ->
  (forall t, In t (wi_rthick i) -> 95 <= t) -> twist_compute npi bq alpha1 smooth o i prev = Raise IndexError.
Proof.
  intros HI HF HC HD HT. unfold twist_compute, twist_design. rewrite HI, HF. unfold inverse_design. rewrite HC. cbn [bind].
  destruct (mapM_total (target alpha1 o i) (seq 0 (length (g_r (wi_args i))))) as (tg & ->).
  { intros k Hk. apply in_seq in Hk. apply target_ok; [exact HD|lia]. }
  cbn [bind]. cbv zeta. rewrite (no_thin _ 0 HT). reflexivity.
Qed.

Lemma both_fail o i b prev : wo_inverse o = true -> wo_flag o = true -> construct (wi_args i) = Ok b ->
  twist_compute npi bq alpha1 smooth o i prev = Raise OtherException.
Proof. intros HI HF HC. unfold twist_compute, twist_design. rewrite HI, HF, HC. reflexivity. Qed.

Lemma design_needs o i prev out : wo_inverse o = true -> twist_compute npi bq alpha1 smooth o i prev = Ok out ->
  wo_flag o = false /\ exists t, In t (wi_rthick i) /\ t < 95.
Proof.
  intros HI H. unfold twist_compute, twist_design in H. rewrite HI in H. destruct (wo_flag o).
  - destruct (construct (wi_args i)); discriminate H.
  - split; [reflexivity|]. apply bind_ok in H. destruct H as (b & H & _). apply bind_ok in H. destruct H as (b0 & H & _). unfold inverse_design in H.
    apply bind_ok in H. destruct H as (b1 & _ & H). apply bind_ok in H. destruct H as (tg & _ & H). cbv zeta in H. apply bind_ok in H. destruct H as (m & H & _).
    revert H. generalize 0%nat. induction (wi_rthick i) as [|t l IH]; intros k H; cbn [first_thin] in H; [discriminate|].
    destruct (rltb t 95) eqn:E.
    + apply rltb_true in E. exists t. split; [left; reflexivity|exact E].
    + destruct (IH _ H) as (u & Hu & Hu2). exists u. split; [right; exact Hu|exact Hu2].
Qed.
End Fail.
