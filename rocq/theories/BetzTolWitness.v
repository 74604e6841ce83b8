(** A rotor whose stations settle at 45 degrees only approximately (C109). *)
From Coquelicot Require Import Coquelicot.
From Coq Require Import Reals Bool Arith List Lra Lia Psatz.
From Verif Require Import Prelim Num Bem BemGeomProofs IndSpec IndProofs Blade BladeSpec FlProofs StationProofs StationWitness StationExist StationLoads BladeProofs
  SectorProofs SimilaritySpec SymmetryProofs SectorWitness InverseForward InverseWitness BetzSpec BetzStation BetzRotor InterpSpec ConstructProofs CSystemSpec IdealRoot
  BetzWitness BetzTolSpec.
Import ListNotations.
Open Scope R_scope.

(** A root finder that answers pi/4 without looking at the function, if that is in the bracket. *)
Definition diagonal (f : fl -> fl) (lo hi : fl) : res fl :=
  match fval lo, fval hi with
  | Some a, Some b => if andb (rleb a (PI / 4)) (rleb (PI / 4) b) then Ok (Fin (PI / 4)) else Raise ValueError
  | _, _ => Raise ValueError
  end.
Lemma diagonal_inside : root_inside diagonal.
Proof.
  intros f lo hi x _ E. unfold diagonal in E. cbn [fval] in E. destruct (rleb lo (PI / 4)) eqn:E1; [|discriminate E].
  destruct (rleb (PI / 4) hi) eqn:E2; [|discriminate E]. cbn [andb] in E. apply ok_inj in E. apply rleb_true in E1, E2. exists (PI / 4). auto.
Qed.
(** It does not find zeros. *)
Lemma diagonal_careless : ~ finds_zeros diagonal.
Proof.
  intros H. pose proof PI_RGT_0. pose proof PI_4. assert (Z := H (fun _ => Fin 1) (Fin 0) (Fin 1) (Fin (PI / 4))).
  assert (E : diagonal (fun _ => Fin 1) (Fin 0) (Fin 1) = Ok (Fin (PI / 4))).
  { unfold diagonal. cbn [fval]. replace (rleb 0 (PI / 4)) with true by (symmetry; apply rleb_true; lra).
    replace (rleb (PI / 4) 1) with true by (symmetry; apply rleb_true; lra). reflexivity. }
  specialize (Z E). unfold rep in Z. cbn in Z. injection Z. lra.
Qed.

Section Near.
Variables (B : nat) (r chord C Rhub Rtip rho mu t p lam k0 : R).
Hypothesis HB : (1 <= B)%nat.
Hypothesis Hh : 0 < Rhub < r.
Hypothesis Ht : r < Rtip.
Hypothesis Hl : 2 / 3 <= lam <= 9 / 10.
Hypothesis Hk0 : 1 / 5 <= k0 <= 1 / 2.
Hypothesis HA : solidity B chord r * C / 4 = q2 * k0.
Let rt := mkRotor (Fin Rhub) (Fin Rtip) B (Fin rho) (Fin mu) plain 1 (Fin p).
Let sc := mkSect (Fin r) (Fin chord) (Fin t) (lift_af C) (Fin 1) (Fin lam).

Lemma near_solve npi : 3 < npi < PI -> solve npi diagonal (errf rt sc 0) = Ok (Fin (PI / 4)).
Proof.
  intros Hn. set (f := errf rt sc 0). pose proof PI_4. destruct q2_sqr as (_ & Q).
  assert (A0 : 1 / 10 <= solidity B chord r * C / 4 <= 1 / 2) by (rewrite HA; nra).
  assert (Il : 10 / 9 <= 1 / lam). { apply Rmult_le_reg_r with lam; [lra|]. replace (1 / lam * lam) with 1 by (field; lra). lra. }
  assert (Ne : neg (f (Fin (1 / 1000000)))).
  { destruct (eps_value B r chord C Rhub Rtip rho mu t p lam HB Hh Ht ltac:(lra) ltac:(lra)) as (x & QX & X1 & X2). eapply rep_neg_sign; [exact QX|].
    destruct eps_trig as ((S0 & S1) & C0 & C1). unfold Rdiv at 2. replace (/ lam) with (1 / lam) by (field; lra). set (i := 1 / lam) in *. set (s := sin eps) in *. set (c := cos eps) in *.
    assert (x ^ 2 <= 1) by nra. assert (x <= 1) by nra. nra. }
  assert (Ph : pos (f (Fin (npi / 2)))).
  { destruct (half_pos B r chord C Rhub Rtip rho mu t p lam HB Hh Ht ltac:(lra) npi (npi / 2) Hn ltac:(lra) ltac:(lra) ltac:(lra)) as (x & QX & X). eapply rep_pos; eassumption. }
  assert (Ns : forall y, pos y -> neg y -> False).
  { intros y [->|(v & -> & H1)] [E|(v' & E & H2)]; try discriminate E. injection E; intros <-. lra. }
  destruct (documented_bracket_exists npi f) as (lo & hi & D & E). unfold solve. rewrite E.
  assert (NS : ~ same_strict_sign (f (Fin (1 / 1000000))) (f (Fin (npi / 2)))) by (intros [[P1 P2]|[P1 P2]]; [exact (Ns _ P1 Ne)|exact (Ns _ Ph P2)]).
  destruct D as [HS|HS HN HP|HS HN]; [|contradiction|contradiction].
  unfold diagonal. cbn [fval].
  replace (rleb (1 / 1000000) (PI / 4)) with true by (symmetry; apply rleb_true; pose proof PI2_1; lra).
  replace (rleb (PI / 4) (npi / 2)) with true by (symmetry; apply rleb_true; lra). reflexivity.
Qed.

Lemma near_station npi : 3 < npi < PI -> 0 <= rho ->
  exists l N, solve_station npi diagonal rt true sc = Ok l /\ rep (o_Np l) N /\
    rep (o_Tp l) (C * q2 * (rho / 2 * ((1 / (1 + k0)) ^ 2 + lam ^ 2)) * chord) /\ rep (o_alpha l) (degrees (PI / 4 - (t + p))) /\
    rep (o_a l) (k0 / (1 + k0)) /\ rep (o_ap l) 0.
Proof.
  intros Hn Hrho. pose proof PI_RGT_0. destruct q2_sqr as (Q & Q1).
  assert (K : solidity B chord r * C / 4 * cos (PI / 4) / sin (PI / 4) ^ 2 = k0).
  { rewrite sin_PI4, cos_PI4. fold q2. rewrite HA. field. lra. }
  assert (I : 0 <= k0 / (1 + k0) <= 10).
  { split; [apply Rdiv_le_0_compat; lra|]. apply Rmult_le_reg_r with (1 + k0); [lra|]. replace (k0 / (1 + k0) * (1 + k0)) with k0 by (field; lra). lra. }
  destruct (lift_loads B r chord C Rhub Rtip rho mu t p lam Hh ltac:(lra) (PI / 4)) as (l & N & E & QN & QT & QA & Qa & Qap);
    [lra|cbv beta; rewrite K; lra|cbv beta; rewrite K; lra|cbv beta; rewrite K, Rabs_right; lra|exact Hrho|].
  cbv beta in QT, Qa. rewrite K, sin_PI4 in QT. rewrite K in Qa. exists l, N. refine (conj _ (conj QN (conj QT (conj QA (conj Qa Qap))))).
  unfold solve_station. change (rt_iterRe rt) with 1%nat. cbv iota. rewrite near_solve by exact Hn. exact E.
Qed.
End Near.

Lemma near_closes lam k0 : 0 <= k0 -> 0 < lam -> Rabs (1 - (1 + k0) * lam) <= 1 / 20 * ((1 + k0) * lam) ->
  closes_within (1 / 20) 1 lam (PI / 4) (k0 / (1 + k0)) 0.
Proof.
  intros Hk Hl H. unfold closes_within. rewrite sin_PI4, cos_PI4. fold q2. destruct q2_sqr as (_ & Q).
  replace (1 * (1 - k0 / (1 + k0)) * q2 - lam * (1 + 0) * q2) with (q2 / (1 + k0) * (1 - (1 + k0) * lam)) by (field; lra).
  replace (lam * (1 + 0) * q2) with (q2 / (1 + k0) * ((1 + k0) * lam)) by (field; lra).
  assert (P1 : 0 < q2 / (1 + k0)) by (apply Rdiv_lt_0_compat; lra). assert (P2 : 0 < (1 + k0) * lam) by (apply Rmult_lt_0_compat; lra).
  rewrite (Rabs_mult _ (1 - _)), (Rabs_mult _ ((1 + k0) * lam)), (Rabs_right (q2 / (1 + k0))), (Rabs_right ((1 + k0) * lam)) by lra. nra.
Qed.

(** The rotor of C101 turning one twentieth faster: it reports power and closes up to 1/20 at both stations. *)
Lemma near_power npi : 3 < npi < PI ->
  exists l0 l1, section_loads npi diagonal front_blade 1 (21 / 4 / PI) 0 0 = Ok [l0; l1] /\
    settled_within (1 / 20) 0 0 1 (21 / 4 / PI * PI / 30 * 4) l0 /\ settled_within (1 / 20) 0 0 1 (21 / 4 / PI * PI / 30 * 5) l1 /\
  exists b' y w, evaluate npi diagonal front_blade [(1, 21 / 4 / PI, 0)] = Ok (b', [Some y], w) /\ 0 < y_P y.
Proof.
  intros Hn. pose proof PI_RGT_0 as HP. pose proof lift2_q2 as LQ.
  assert (HO : 21 / 4 / PI <> 0) by (apply Rgt_not_eq, Rdiv_lt_0_compat; lra).
  assert (W0 : 21 / 4 / PI * PI / 30 * 4 = 7 / 10) by (field; lra). assert (W1 : 21 / 4 / PI * PI / 30 * 5 = 7 / 8) by (field; lra).
  destruct (near_station 2 4 (2 * PI) (2 * sqrt 2) 1 6 1 1 0 (radians 0) (7 / 10) (1 / 2) ltac:(lia) ltac:(lra) ltac:(lra) ltac:(lra) ltac:(lra)
    ltac:(rewrite (lift2_A _ _ (1 / 2)) by lra; reflexivity) npi Hn ltac:(lra)) as (l0 & N0 & S0 & QN0 & QT0 & QA0 & Qa0 & Qp0).
  destruct (near_station 2 5 PI (2 * sqrt 2) 1 6 1 1 0 (radians 0) (7 / 8) (1 / 5) ltac:(lia) ltac:(lra) ltac:(lra) ltac:(lra) ltac:(lra)
    ltac:(rewrite (lift2_A _ _ (1 / 5)) by lra; reflexivity) npi Hn ltac:(lra)) as (l1 & N1 & S1 & QN1 & QT1 & QA1 & Qa1 & Qp1).
  destruct (two_evaluate 4 5 (2 * PI) PI 1 6 ltac:(lra) ltac:(lra) npi diagonal (21 / 4 / PI) 0 l0 l1 N0 N1 _ _ HO
    ltac:(rewrite W0; exact S0) ltac:(rewrite W1; exact S1) QN0 QN1 QT0 QT1) as (SL & b' & y & w & E & EP).
  rewrite radians_0 in QA0, QA1. replace (degrees (PI / 4 - (0 + 0))) with 45 in QA0, QA1 by (unfold degrees; field; lra).
  assert (A45 : radians (45 + 0 + 0) = PI / 4) by (unfold radians; field).
  exists l0, l1. split; [exact SL|]. split.
  { exists 45, (1 / 2 / (1 + 1 / 2)), 0. rewrite A45, W0. refine (conj QA0 (conj Qa0 (conj Qp0 (conj _ _)))); [lra|]. apply near_closes; try lra. rewrite Rabs_left; lra. }
  split.
  { exists 45, (1 / 5 / (1 + 1 / 5)), 0. rewrite A45, W1. refine (conj QA1 (conj Qa1 (conj Qp1 (conj _ _)))); [lra|]. apply near_closes; try lra. rewrite Rabs_left; lra. }
  exists b', y, w. split; [exact E|]. rewrite EP, LQ. replace (21 / 4 / PI * PI / 30) with (7 / 40) by (field; lra).
  assert (X : forall a b, 0 < 2 * (1 / 2 * (a ^ 2 + (7 / 10) ^ 2)) * (2 * PI) /\ 0 < 2 * (1 / 2 * (b ^ 2 + (7 / 8) ^ 2)) * PI).
  { intros a0 b0. pose proof (pow2_ge_0 a0). pose proof (pow2_ge_0 b0). split; (apply Rmult_lt_0_compat; [|lra]); lra. }
  destruct (X (1 / (1 + 1 / 2)) (1 / (1 + 1 / 5))) as (X0 & X1). lra.
Qed.
