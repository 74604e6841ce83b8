(** A root finder that meets the whole contract used for C102: the intermediate value theorem. *)
From Coq Require Import Reals Bool Arith List Lra Lia Classical ClassicalDedekindReals.
From Verif Require Import Prelim Num Blade BladeSpec FlProofs InverseForward BetzSpec.
Open Scope R_scope.

Definition clamp (a b x : R) : R := Rmax a (Rmin b x).
Lemma clamp_in a b x : a <= b -> a <= clamp a b x <= b.
Proof. intros H. unfold clamp, Rmax, Rmin. repeat destruct (Rle_dec _ _); lra. Qed.
Lemma clamp_id a b x : a <= x <= b -> clamp a b x = x.
Proof. intros H. unfold clamp, Rmax, Rmin. repeat destruct (Rle_dec _ _); lra. Qed.
Lemma clamp_lipschitz a b x y : Rabs (clamp a b x - clamp a b y) <= Rabs (x - y).
Proof. unfold clamp, Rmax, Rmin, Rabs. repeat destruct (Rle_dec _ _); repeat destruct (Rcase_abs _); lra. Qed.

Definition value (x : fl) : R := match fval x with Some v => v | None => 0 end.
Definition on_bracket (f : fl -> fl) (a b x : R) : R := value (f (Fin (clamp a b x))).
Definition bracketed (f : fl -> fl) (a b : R) : Prop :=
  a <= b /\ (forall v, a <= v <= b -> exists y, rep (f (Fin v)) y) /\ continuity (on_bracket f a b) /\ on_bracket f a b a * on_bracket f a b b <= 0.

Definition root_of f a b (H : bracketed f a b) : {z : R | a <= z <= b /\ on_bracket f a b z = 0} :=
  IVT_cor (on_bracket f a b) a b (proj1 (proj2 (proj2 H))) (proj1 H) (proj2 (proj2 (proj2 H))).

Definition ideal (f : fl -> fl) (lo hi : fl) : res fl :=
  match lo, hi with
  | Fin a, Fin b =>
      match sig_not_dec (bracketed f a b) with
      | left nn => Ok (Fin (proj1_sig (root_of f a b (NNPP _ nn))))
      | right _ => Raise ValueError
      end
  | _, _ => Raise ValueError
  end.

Lemma ideal_root f a b x : ideal f (Fin a) (Fin b) = Ok x -> exists v, x = Fin v /\ a <= v <= b /\ rep (f (Fin v)) 0.
Proof.
  unfold ideal. destruct (sig_not_dec _) as [nn|_]; [|discriminate]. intros E. injection E; intros <-. clear E.
  set (H := NNPP _ nn). destruct (root_of f a b H) as (v & Hv & Hz). cbn [proj1_sig]. exists v. split; [reflexivity|]. split; [exact Hv|].
  unfold on_bracket in Hz. rewrite clamp_id in Hz by exact Hv. destruct (proj1 (proj2 H) v Hv) as (y & Ry).
  unfold value in Hz. unfold rep in *. rewrite Ry in *. subst y. reflexivity.
Qed.
Lemma ideal_inside : root_inside ideal.
Proof. intros f a b x _ E. destruct (ideal_root _ _ _ _ E) as (v & -> & Hv & _). eauto. Qed.
Lemma ideal_zeros : finds_zeros ideal.
Proof.
  intros f lo hi v E. destruct lo as [a| | | |], hi as [b| | | |]; try discriminate E.
  destruct (ideal_root _ _ _ _ E) as (x & -> & _ & H). exact H.
Qed.
Lemma ideal_accepts : accepts_continuous ideal.
Proof.
  intros f g a b Hab Hf Hc Hs. unfold ideal. destruct (sig_not_dec _) as [nn|N]; [eauto|]. exfalso. apply N.
  assert (E : forall x, on_bracket f a b x = g (clamp a b x)).
  { intros x. unfold on_bracket, value. pose proof (Hf _ (clamp_in a b x Hab)) as H. unfold rep in H. rewrite H. reflexivity. }
  split; [exact Hab|]. split; [intros v Hv; exists (g v); auto|]. split.
  - intros x eps He. destruct (Hc _ (clamp_in a b x Hab) eps He) as (alp & Ha & H). exists alp. split; [exact Ha|].
    intros y (_ & Hd). rewrite !E. destruct (Req_dec (clamp a b y) (clamp a b x)) as [->|Hn].
    + cbn. unfold R_dist. rewrite Rminus_diag_eq, Rabs_R0 by reflexivity. exact He.
    + apply H. split; [split; [exact I|apply not_eq_sym; exact Hn]|]. cbn in *. unfold R_dist in *. eapply Rle_lt_trans; [apply clamp_lipschitz|exact Hd].
  - rewrite !E, !clamp_id by lra. lra.
Qed.
