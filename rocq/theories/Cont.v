(** Continuity and differentiability helpers. *)
From Coquelicot Require Import Coquelicot.
From Coq Require Import Reals Lra.
Open Scope R_scope.

Section C.
Variables (f g : R -> R) (x : R).
Lemma cR_plus : continuous f x -> continuous g x -> continuous (fun t => f t + g t) x.
Proof. intros. apply (continuous_plus f g); assumption. Qed.
Lemma cR_minus : continuous f x -> continuous g x -> continuous (fun t => f t - g t) x.
Proof. intros. apply (continuous_minus f g); assumption. Qed.
Lemma cR_opp : continuous f x -> continuous (fun t => - f t) x.
Proof. intros. apply (continuous_opp f); assumption. Qed.
Lemma cR_mult : continuous f x -> continuous g x -> continuous (fun t => f t * g t) x.
Proof. intros. apply (continuous_mult f g); assumption. Qed.
End C.

Lemma cR_div f g (x : R) : continuous f x -> continuous g x -> g x <> 0 -> continuous (fun t => f t / g t) x.
Proof. intros. apply (cR_mult f (fun t => / g t)); [assumption|]. apply continuous_Rinv_comp; assumption. Qed.

Lemma cR_pow f (x : R) n : continuous f x -> continuous (fun t => f t ^ n) x.
Proof. intros H. induction n; cbn [pow]; [apply continuous_const|]. apply cR_mult; assumption. Qed.

Lemma cR_min f g (x : R) : continuous f x -> continuous g x -> continuous (fun t => Rmin (f t) (g t)) x.
Proof.
  intros Hf Hg. apply continuous_ext with (f := fun t => (f t + g t - Rabs (f t - g t)) / 2).
  - intros t. match goal with |- ?a = ?b => change (@eq R a b) end. unfold Rmin. destruct (Rle_dec (f t) (g t)).
    + rewrite Rabs_left1 by lra. field.
    + rewrite Rabs_right by lra. field.
  - apply cR_div; [|apply continuous_const|lra]. apply cR_minus; [apply cR_plus; assumption|].
    apply continuous_Rabs_comp. apply cR_minus; assumption.
Qed.

Lemma cR_max f g (x : R) : continuous f x -> continuous g x -> continuous (fun t => Rmax (f t) (g t)) x.
Proof.
  intros Hf Hg. apply continuous_ext with (f := fun t => (f t + g t + Rabs (f t - g t)) / 2).
  - intros t. match goal with |- ?a = ?b => change (@eq R a b) end. unfold Rmax. destruct (Rle_dec (f t) (g t)).
    + rewrite Rabs_left1 by lra. field.
    + rewrite Rabs_right by lra. field.
  - apply cR_div; [|apply continuous_const|lra]. apply cR_plus; [apply cR_plus; assumption|].
    apply continuous_Rabs_comp. apply cR_minus; assumption.
Qed.

Lemma is_derive_acos (x : R) : -1 < x < 1 -> is_derive acos x (- / sqrt (1 - x ^ 2)).
Proof.
  intros H. apply is_derive_Reals. pose proof (derive_pt_acos x H) as E.
  unfold derive_pt in E. destruct (derivable_pt_acos x H) as [l Hl]. simpl in E. subst l.
  replace (- / sqrt (1 - x ^ 2)) with (-1 / sqrt (1 - x²)); [exact Hl|].
  unfold Rsqr. replace (x ^ 2) with (x * x) by ring. unfold Rdiv. ring.
Qed.

Lemma cR_acos f (x : R) : continuous f x -> -1 < f x < 1 -> continuous (fun t => acos (f t)) x.
Proof.
  intros Hf Hr. apply (continuous_comp f acos); [assumption|].
  apply (ex_derive_continuous acos). eexists. apply is_derive_acos. assumption.
Qed.

(** Continuous retraction onto [lo, hi]. *)
Definition clamp (lo hi x : R) : R := Rmax lo (Rmin hi x).
Lemma clamp_cont lo hi (x : R) : continuous (clamp lo hi) x.
Proof.
  unfold clamp. apply (cR_max (fun _ => lo) (fun x => Rmin hi x)); [apply continuous_const|].
  apply (cR_min (fun _ => hi) (fun x => x)); [apply continuous_const|apply continuous_id].
Qed.
Lemma clamp_range lo hi x : lo <= hi -> lo <= clamp lo hi x <= hi.
Proof. intros. unfold clamp, Rmax, Rmin. destruct (Rle_dec hi x); destruct (Rle_dec lo _); lra. Qed.
Lemma clamp_id lo hi x : lo <= x <= hi -> clamp lo hi x = x.
Proof. intros. unfold clamp, Rmax, Rmin. destruct (Rle_dec hi x); destruct (Rle_dec lo _); lra. Qed.

(** Intermediate values on [lo, hi] for a function continuous from inside: f agrees on the interval
    with a function g such that g o clamp is continuous. *)
Lemma ivt_clamp f g lo hi : lo <= hi -> (forall x, lo <= x <= hi -> f x = g x) ->
  (f lo <= 0 <= f hi \/ f hi <= 0 <= f lo) -> (forall t, continuous (fun t => g (clamp lo hi t)) t) ->
  exists x, lo <= x <= hi /\ f x = 0.
Proof.
  intros Hlh Hfg Hs HC.
  destruct (IVT_gen_consistent (fun t => g (clamp lo hi t)) lo hi 0 HC) as (x & Hx & Ex).
  - rewrite !clamp_id by lra. rewrite <- !Hfg by lra.
    destruct Hs; unfold Rmin, Rmax; destruct (Rle_dec (f lo) (f hi)); lra.
  - rewrite Rmin_left, Rmax_right in Hx by assumption. rewrite clamp_id in Ex by assumption.
    exists x. split; [assumption|]. rewrite Hfg; assumption.
Qed.
