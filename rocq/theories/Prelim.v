(** Shared conventions of the model: exceptions as values, comparisons on exact
    reals as booleans, degree/radian conversion. *)
From Coq Require Import Reals List String Bool Lra.
Import ListNotations.
Open Scope R_scope.

(** Python exceptions the modelled code can raise. *)
Inductive exc :=
| ValueError | IndexError | KeyError | TypeError | ZeroDivisionError
| NameError | AttributeError | RuntimeError | OtherException.

(** Result of a Python call. *)
Inductive res (A : Type) :=
| Ok (a : A)
| Raise (e : exc).
Arguments Ok {A} a.
Arguments Raise {A} e.

Definition bind {A B} (m : res A) (f : A -> res B) : res B :=
  match m with Ok a => f a | Raise e => Raise e end.

Notation "'do' x <- m ; f" := (bind m (fun x => f))
  (at level 200, x name, m at level 100, f at level 200).

(** Comparisons of exact reals as Python/Fortran booleans. *)
Definition rleb (x y : R) : bool := if Rle_dec x y then true else false.
Definition rltb (x y : R) : bool := if Rlt_dec x y then true else false.
Definition reqb (x y : R) : bool := if Req_EM_T x y then true else false.

Lemma rleb_true x y : rleb x y = true <-> x <= y.
Proof. unfold rleb; destruct (Rle_dec x y); split; intros; auto; discriminate. Qed.
Lemma rleb_false x y : rleb x y = false <-> y < x.
Proof. unfold rleb; destruct (Rle_dec x y); split; intros; auto; try discriminate; lra. Qed.
Lemma rltb_true x y : rltb x y = true <-> x < y.
Proof. unfold rltb; destruct (Rlt_dec x y); split; intros; auto; discriminate. Qed.
Lemma rltb_false x y : rltb x y = false <-> y <= x.
Proof. unfold rltb; destruct (Rlt_dec x y); split; intros; auto; try discriminate; lra. Qed.
Lemma reqb_true x y : reqb x y = true <-> x = y.
Proof. unfold reqb; destruct (Req_EM_T x y); split; intros; auto; discriminate. Qed.
Lemma reqb_false x y : reqb x y = false <-> x <> y.
Proof. unfold reqb; destruct (Req_EM_T x y); split; intros; auto; try discriminate; tauto. Qed.

(** numpy.radians / numpy.degrees, exact. *)
Definition radians (d : R) : R := d * (PI / 180).
Definition degrees (a : R) : R := a * (180 / PI).

Lemma degrees_radians d : degrees (radians d) = d.
Proof. unfold degrees, radians. field. apply PI_neq0. Qed.
Lemma radians_degrees a : radians (degrees a) = a.
Proof. unfold degrees, radians. field. apply PI_neq0. Qed.

(** Case split on every boolean comparison in the goal, with the facts added. *)
Ltac rb_hyps :=
  repeat match goal with
  | H : rleb _ _ = true |- _ => apply rleb_true in H
  | H : rleb _ _ = false |- _ => apply rleb_false in H
  | H : rltb _ _ = true |- _ => apply rltb_true in H
  | H : rltb _ _ = false |- _ => apply rltb_false in H
  | H : reqb _ _ = true |- _ => apply reqb_true in H
  | H : reqb _ _ = false |- _ => apply reqb_false in H
  end.
Ltac rb_case :=
  match goal with
  | |- context [rleb ?x ?y] => let E := fresh "E" in destruct (rleb x y) eqn:E; rb_hyps
  | |- context [rltb ?x ?y] => let E := fresh "E" in destruct (rltb x y) eqn:E; rb_hyps
  | |- context [reqb ?x ?y] => let E := fresh "E" in destruct (reqb x y) eqn:E; rb_hyps
  end.
Ltac rb_if :=
  match goal with
  | |- context [if ?b then _ else _] => let E := fresh "E" in destruct b eqn:E; rb_hyps
  end.

(** Products and quotients of non-zero factors are non-zero. *)
Ltac nz :=
  repeat match goal with
  | |- _ /\ _ => split
  | |- ?a * ?b <> 0 => apply Rmult_integral_contrapositive_currified
  | |- ?a / ?b <> 0 => apply Rmult_integral_contrapositive_currified
  | |- / ?a <> 0 => apply Rinv_neq_0_compat
  | |- ?a ^ _ <> 0 => apply pow_nonzero
  end; try assumption; try lra.
