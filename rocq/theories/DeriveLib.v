(** Derivative rules along curves, in the form used by the derivative proofs. *)
From Coquelicot Require Import Coquelicot.
From Coq Require Import Reals Bool Arith Lia Lra.
From Verif Require Import Prelim Num Bem BemGeomSpec BemGeomProofs Cont.
Open Scope R_scope.

Lemma d_ext (f : R -> R) (t d d' : R) : is_derive f t d' -> d = d' -> is_derive f t d.
Proof. intros H ->. exact H. Qed.
Lemma d_const (c t : R) : is_derive (fun _ : R => c) t 0.
Proof. apply (is_derive_const c t). Qed.
Lemma d_id (t : R) : is_derive (fun t : R => t) t 1.
Proof. apply (is_derive_id t). Qed.
Lemma d_opp (f : R -> R) t f' : is_derive f t f' -> is_derive (fun s => - f s) t (- f').
Proof. intros H. apply (is_derive_opp f t f' H). Qed.
Lemma d_plus (f g : R -> R) t f' g' : is_derive f t f' -> is_derive g t g' -> is_derive (fun s => f s + g s) t (f' + g').
Proof. intros H K. apply (is_derive_plus f g t f' g' H K). Qed.
Lemma d_minus (f g : R -> R) t f' g' : is_derive f t f' -> is_derive g t g' -> is_derive (fun s => f s - g s) t (f' - g').
Proof. intros H K. apply (is_derive_minus f g t f' g' H K). Qed.
Lemma d_mult (f g : R -> R) t f' g' : is_derive f t f' -> is_derive g t g' ->
  is_derive (fun s => f s * g s) t (f' * g t + f t * g').
Proof. intros H K. apply (is_derive_mult f g t f' g' H K). intros; apply Rmult_comm. Qed.
Lemma d_div (f g : R -> R) t f' g' : is_derive f t f' -> is_derive g t g' -> g t <> 0 ->
  is_derive (fun s => f s / g s) t ((f' - f t / g t * g') / g t).
Proof.
  intros H K N. eapply d_ext; [apply (is_derive_div f g t f' g' H K N)|]. field. exact N.
Qed.
Lemma d_comp (f g : R -> R) t f' g' : is_derive f t f' -> is_derive g (f t) g' -> is_derive (fun s => g (f s)) t (g' * f').
Proof. intros H K. eapply d_ext; [apply (is_derive_comp g f t g' f' K H)|]. unfold scal; simpl; unfold mult; simpl. ring. Qed.
Lemma d_sin (f : R -> R) t f' : is_derive f t f' -> is_derive (fun s => sin (f s)) t (cos (f t) * f').
Proof. intros H. apply (d_comp f sin); [exact H|apply is_derive_sin]. Qed.
Lemma d_cos (f : R -> R) t f' : is_derive f t f' -> is_derive (fun s => cos (f s)) t (- sin (f t) * f').
Proof. intros H. apply (d_comp f cos); [exact H|apply is_derive_cos]. Qed.
Lemma d_exp (f : R -> R) t f' : is_derive f t f' -> is_derive (fun s => exp (f s)) t (exp (f t) * f').
Proof. intros H. apply (d_comp f exp); [exact H|apply is_derive_exp]. Qed.
Lemma d_ln (f : R -> R) t f' : is_derive f t f' -> 0 < f t -> is_derive (fun s => ln (f s)) t (/ f t * f').
Proof. intros H P. apply (d_comp f ln); [exact H|apply is_derive_ln; exact P]. Qed.
Lemma d_acos (f : R -> R) t f' : is_derive f t f' -> -1 < f t < 1 ->
  is_derive (fun s => acos (f s)) t (- / sqrt (1 - f t ^ 2) * f').
Proof. intros H P. apply (d_comp f acos); [exact H|apply is_derive_acos; exact P]. Qed.
Lemma d_atan (f : R -> R) t f' : is_derive f t f' -> is_derive (fun s => atan (f s)) t (/ (1 + f t ^ 2) * f').
Proof.
  intros H. apply (d_comp f atan); [exact H|]. eapply d_ext; [apply is_derive_atan|].
  unfold Rsqr. f_equal. ring.
Qed.
Lemma d_sqrt (f : R -> R) t f' : is_derive f t f' -> 0 < f t -> is_derive (fun s => sqrt (f s)) t (f' / (2 * sqrt (f t))).
Proof.
  intros H P. eapply d_ext; [apply (is_derive_sqrt f t f' H P)|].
  field. apply Rgt_not_eq, sqrt_lt_R0, P.
Qed.
Lemma d_pow2 (f : R -> R) t f' : is_derive f t f' -> is_derive (fun s => f s ^ 2) t (2 * f t * f').
Proof.
  intros H. apply (is_derive_ext (fun s => f s * f s)); [intros; simpl; ring|].
  eapply d_ext; [apply (d_mult f f t f' f' H H)|]. ring.
Qed.

(** One derivative rule per head symbol. *)
Ltac der_step :=
  match goal with
  | H : is_derive ?f ?t _ |- is_derive ?f ?t _ => exact H
  | H : is_derive ?f ?t _ |- is_derive (fun s => ?f s) ?t _ => exact H
  | |- is_derive (fun _ => ?c) _ _ => apply d_const
  | |- is_derive (fun s => s) _ _ => apply d_id
  | |- is_derive (fun s => - @?f s) _ _ => eapply d_opp
  | |- is_derive (fun s => @?f s + @?g s) _ _ => eapply d_plus
  | |- is_derive (fun s => @?f s - @?g s) _ _ => eapply d_minus
  | |- is_derive (fun s => @?f s * @?g s) _ _ => eapply d_mult
  | |- is_derive (fun s => @?f s / @?g s) _ _ => eapply d_div
  | |- is_derive (fun s => @?f s ^ 2) _ _ => eapply d_pow2
  | |- is_derive (fun s => sin (@?f s)) _ _ => eapply d_sin
  | |- is_derive (fun s => cos (@?f s)) _ _ => eapply d_cos
  | |- is_derive (fun s => exp (@?f s)) _ _ => eapply d_exp
  | |- is_derive (fun s => ln (@?f s)) _ _ => eapply d_ln
  | |- is_derive (fun s => acos (@?f s)) _ _ => eapply d_acos
  | |- is_derive (fun s => atan (@?f s)) _ _ => eapply d_atan
  | |- is_derive (fun s => sqrt (@?f s)) _ _ => eapply d_sqrt
  end.
(** Derivative of an expression: leaves the side conditions and the equation. *)
Ltac der := eapply d_ext; [repeat der_step | cbv beta].

(** A property of a continuous quantity that holds on an open side holds nearby. *)
Lemma near_pos (f : R -> R) t f' : is_derive f t f' -> 0 < f t -> locally t (fun s => 0 < f s).
Proof.
  intros H P. assert (C : continuous f t) by (apply (ex_derive_continuous f t); eexists; exact H).
  apply (C (fun y => 0 < y)). exact (open_gt 0 (f t) P).
Qed.
Lemma near_neg (f : R -> R) t f' : is_derive f t f' -> f t < 0 -> locally t (fun s => f s < 0).
Proof.
  intros H P. assert (C : continuous f t) by (apply (ex_derive_continuous f t); eexists; exact H).
  apply (C (fun y => y < 0)). exact (open_lt 0 (f t) P).
Qed.
Lemma near_lt (f g : R -> R) t f' g' : is_derive f t f' -> is_derive g t g' -> f t < g t ->
  locally t (fun s => f s < g s).
Proof.
  intros H K P. generalize (near_pos (fun s => g s - f s) t (g' - f') (d_minus _ _ _ _ _ K H) ltac:(lra)).
  apply filter_imp. intros s Hs. lra.
Qed.
Lemma near_ne (f : R -> R) t f' : is_derive f t f' -> f t <> 0 -> locally t (fun s => f s <> 0).
Proof.
  intros H P. destruct (Rtotal_order (f t) 0) as [L|[E|G]]; [|contradiction|].
  - generalize (near_neg f t f' H L). apply filter_imp. intros; lra.
  - generalize (near_pos f t f' H G). apply filter_imp. intros; lra.
Qed.

(** ** atan2 *)
Lemma Rdiv_neg_pos' x y : x < 0 -> 0 < y -> x / y < 0.
Proof. intros. pose proof (Rinv_0_lt_compat y ltac:(assumption)). unfold Rdiv. nra. Qed.
Lemma Rdiv_pos_neg' x y : 0 < x -> y < 0 -> x / y < 0.
Proof. intros. pose proof (Rinv_lt_0_compat y ltac:(assumption)). unfold Rdiv. nra. Qed.
Lemma Rdiv_neg_neg' x y : x < 0 -> y < 0 -> 0 < x / y.
Proof. intros. pose proof (Rinv_lt_0_compat y ltac:(assumption)). unfold Rdiv. nra. Qed.
Lemma atan2_right y x : 0 < x -> atan2 y x = atan (y / x).
Proof. intros H. unfold atan2. rb_if; [reflexivity|lra]. Qed.
Lemma atan_inv_neg u : u < 0 -> atan (/ u) = - PI / 2 - atan u.
Proof.
  intros H. replace (/ u) with (- / (- u)) by (field; lra). rewrite atan_opp, atan_inv by lra.
  rewrite atan_opp. lra.
Qed.
Lemma atan2_up y x : 0 < y -> atan2 y x = PI / 2 - atan (x / y).
Proof.
  intros H. destruct (Rtotal_order x 0) as [L|[E|G]].
  - unfold atan2. rb_if; [lra|]. rb_if; [|lra]. rb_if; [|lra].
    replace (y / x) with (/ (x / y)) by (field; lra).
    rewrite atan_inv_neg; [lra|]. apply Rdiv_neg_pos'; assumption.
  - subst x. unfold atan2. replace (rltb 0 0) with false by (symmetry; apply rltb_false; lra). rb_if; [|lra].
    replace (0 / y) with 0 by (field; lra). rewrite atan_0. lra.
  - rewrite atan2_right by assumption. replace (y / x) with (/ (x / y)) by (field; lra).
    rewrite atan_inv; [lra|]. apply Rdiv_lt_0_compat; assumption.
Qed.
Lemma atan2_down y x : y < 0 -> atan2 y x = - PI / 2 - atan (x / y).
Proof.
  intros H. destruct (Rtotal_order x 0) as [L|[E|G]].
  - unfold atan2. rb_if; [lra|]. rb_if; [|lra]. rb_if; [lra|].
    replace (y / x) with (/ (x / y)) by (field; lra).
    rewrite atan_inv; [lra|]. apply Rdiv_neg_neg'; assumption.
  - subst x. unfold atan2. replace (rltb 0 0) with false by (symmetry; apply rltb_false; lra). 
    replace (rltb 0 y) with false by (symmetry; apply rltb_false; lra). rb_if; [|lra].
    replace (0 / y) with 0 by (field; lra). rewrite atan_0. lra.
  - rewrite atan2_right by assumption. replace (y / x) with (/ (x / y)) by (field; lra).
    rewrite atan_inv_neg; [lra|]. apply Rdiv_pos_neg'; assumption.
Qed.

(** Away from its cut (x <= 0, y = 0) atan2 has the usual derivative. *)
Lemma d_atan2 (y x : R -> R) (t y' x' : R) : is_derive y t y' -> is_derive x t x' -> (0 < x t \/ y t <> 0) ->
  is_derive (fun s => atan2 (y s) (x s)) t ((x t * y' - y t * x') / (y t ^ 2 + x t ^ 2)).
Proof.
  intros Hy Hx [H|H].
  - apply (is_derive_ext_loc (fun s => atan (y s / x s))).
    { generalize (near_pos x t x' Hx H). apply filter_imp. intros s Hs. symmetry. apply atan2_right. exact Hs. }
    der; [lra|]. field; repeat split; first [lra|nra].
  - destruct (Rtotal_order (y t) 0) as [L|[E|G]]; [|contradiction|].
    + apply (is_derive_ext_loc (fun s => - PI / 2 - atan (x s / y s))).
      { generalize (near_neg y t y' Hy L). apply filter_imp. intros s Hs. symmetry. apply atan2_down. exact Hs. }
      der; [lra|]. field; repeat split; first [lra|nra].
    + apply (is_derive_ext_loc (fun s => PI / 2 - atan (x s / y s))).
      { generalize (near_pos y t y' Hy G). apply filter_imp. intros s Hs. symmetry. apply atan2_up. exact Hs. }
      der; [lra|]. field; repeat split; first [lra|nra].
Qed.
