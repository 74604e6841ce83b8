(** Arithmetic interface and its two instances.

    The BEM kernel is written once, over any carrier with the operations below,
    and used at two carriers:
    - [R]: exact real arithmetic;
    - [fl]: exact reals extended with the IEEE-754 special values (negative
      zero, infinities, NaN) and the IEEE-754 rules for them. Rounding, overflow and
      underflow are not modelled in either. *)
From Coq Require Import Reals Bool Lra.
From Verif Require Import Prelim.
Open Scope R_scope.

Class Arith (A : Type) := {
  ofR : R -> A;
  nadd : A -> A -> A;
  nsub : A -> A -> A;
  nmul : A -> A -> A;
  ndiv : A -> A -> A;
  nopp : A -> A;
  nabs : A -> A;
  nsqrt : A -> A;
  nsin : A -> A;
  ncos : A -> A;
  nacos : A -> A;
  nexp : A -> A;
  nle : A -> A -> bool;   (* <= *)
  nlt : A -> A -> bool;   (* <  *)
  neq : A -> A -> bool    (* == *)
}.

Declare Scope num_scope.
Delimit Scope num_scope with num.
Notation "x + y" := (nadd x y) : num_scope.
Notation "x - y" := (nsub x y) : num_scope.
Notation "x * y" := (nmul x y) : num_scope.
Notation "x / y" := (ndiv x y) : num_scope.
Notation "- x" := (nopp x) : num_scope.

#[global] Instance R_arith : Arith R := {
  ofR := fun x => x;
  nadd := Rplus; nsub := Rminus; nmul := Rmult; ndiv := Rdiv; nopp := Ropp;
  nabs := Rabs; nsqrt := sqrt; nsin := sin; ncos := cos; nacos := acos; nexp := exp;
  nle := rleb; nlt := rltb; neq := reqb
}.

(** IEEE special values over exact reals. [Fin 0] is +0. *)
Inductive fl := Fin (x : R) | NZ | PInf | NInf | NaN.

Definition isneg (a : fl) : bool :=
  match a with Fin x => rltb x 0 | NZ => true | PInf => false | NInf => true | NaN => false end.
Definition iszero (a : fl) : bool :=
  match a with Fin x => reqb x 0 | NZ => true | _ => false end.
Definition zero_s (s : bool) : fl := if s then NZ else Fin 0.
Definition inf_s (s : bool) : fl := if s then NInf else PInf.

Definition fneg (a : fl) : fl :=
  match a with
  | Fin x => if reqb x 0 then NZ else Fin (- x)
  | NZ => Fin 0 | PInf => NInf | NInf => PInf | NaN => NaN
  end.

Definition fadd (a b : fl) : fl :=
  match a, b with
  | NaN, _ | _, NaN => NaN
  | PInf, NInf | NInf, PInf => NaN
  | PInf, _ | _, PInf => PInf
  | NInf, _ | _, NInf => NInf
  | NZ, NZ => NZ
  | NZ, Fin y => Fin y
  | Fin x, NZ => Fin x
  | Fin x, Fin y => Fin (x + y)
  end.

Definition fsub (a b : fl) : fl := fadd a (fneg b).

Definition fmul (a b : fl) : fl :=
  match a, b with
  | NaN, _ | _, NaN => NaN
  | PInf, _ | NInf, _ | _, PInf | _, NInf =>
      if orb (iszero a) (iszero b) then NaN else inf_s (xorb (isneg a) (isneg b))
  | NZ, _ | _, NZ => zero_s (xorb (isneg a) (isneg b))
  | Fin x, Fin y =>
      if orb (reqb x 0) (reqb y 0) then zero_s (xorb (isneg a) (isneg b)) else Fin (x * y)
  end.

Definition fdiv (a b : fl) : fl :=
  match a, b with
  | NaN, _ | _, NaN => NaN
  | PInf, PInf | PInf, NInf | NInf, PInf | NInf, NInf => NaN
  | PInf, _ | NInf, _ => inf_s (xorb (isneg a) (isneg b))
  | _, PInf | _, NInf => zero_s (xorb (isneg a) (isneg b))
  | _, _ =>
      if iszero b then (if iszero a then NaN else inf_s (xorb (isneg a) (isneg b)))
      else if iszero a then zero_s (xorb (isneg a) (isneg b))
      else match a, b with Fin x, Fin y => Fin (x / y) | _, _ => NaN end
  end.

Definition fabs (a : fl) : fl :=
  match a with Fin x => Fin (Rabs x) | NZ => Fin 0 | PInf | NInf => PInf | NaN => NaN end.
Definition fsqrt (a : fl) : fl :=
  match a with
  | Fin x => if rltb x 0 then NaN else Fin (sqrt x)
  | NZ => NZ | PInf => PInf | NInf => NaN | NaN => NaN end.
Definition fsin (a : fl) : fl :=
  match a with Fin x => Fin (sin x) | NZ => NZ | _ => NaN end.
Definition fcos (a : fl) : fl :=
  match a with Fin x => Fin (cos x) | NZ => Fin 1 | _ => NaN end.
Definition facos (a : fl) : fl :=
  match a with
  | Fin x => if andb (rleb (-1) x) (rleb x 1) then Fin (acos x) else NaN
  | NZ => Fin (PI / 2) | _ => NaN end.
Definition fexp (a : fl) : fl :=
  match a with Fin x => Fin (exp x) | NZ => Fin 1 | PInf => PInf | NInf => Fin 0 | NaN => NaN end.

(** Comparisons: false as soon as a NaN is involved; -0 = +0. *)
Definition fval (a : fl) : option R :=
  match a with Fin x => Some x | NZ => Some 0 | _ => None end.
Definition flt (a b : fl) : bool :=
  match a, b with
  | NaN, _ | _, NaN => false
  | NInf, NInf => false | NInf, _ => true
  | _, NInf => false
  | PInf, _ => false
  | _, PInf => true
  | _, _ => match fval a, fval b with Some x, Some y => rltb x y | _, _ => false end
  end.
Definition feq (a b : fl) : bool :=
  match a, b with
  | NaN, _ | _, NaN => false
  | PInf, PInf | NInf, NInf => true
  | PInf, _ | NInf, _ | _, PInf | _, NInf => false
  | _, _ => match fval a, fval b with Some x, Some y => reqb x y | _, _ => false end
  end.
Definition fle (a b : fl) : bool := orb (flt a b) (feq a b).
Definition fisnan (a : fl) : bool := match a with NaN => true | _ => false end.

#[global] Instance fl_arith : Arith fl := {
  ofR := Fin;
  nadd := fadd; nsub := fsub; nmul := fmul; ndiv := fdiv; nopp := fneg;
  nabs := fabs; nsqrt := fsqrt; nsin := fsin; ncos := fcos; nacos := facos; nexp := fexp;
  nle := fle; nlt := flt; neq := feq
}.
