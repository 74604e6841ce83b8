(** Proofs for the outputs of CCBladeTwist (C93). *)
From Coq Require Import Reals Bool Arith List Lra Lia.
From Verif Require Import Prelim Num Bem Interp InterpSpec InterpProofs BemDiff Blade BladeSpec FlProofs StationProofs StationLoads BladeProofs BladeDiff BladeDvProofs ConstructProofs
  Component ComponentSpec TwistProofs TwistOutSpec.
Import ListNotations.
Open Scope R_scope.

Lemma fvals_complete l c : Forall2 rep l c -> fvals l = Some c.
Proof.
  induction 1 as [|a x l c H _ IH]; [reflexivity|]. cbn [fvals]. unfold rep in H. rewrite H, IH. reflexivity.
Qed.

Lemma Forall2_len {A B} (P : A -> B -> Prop) l m : Forall2 P l m -> length l = length m.
Proof. induction 1; [reflexivity|]. cbn. congruence. Qed.

Lemma r_nd_fraction r : increasing r -> (2 <= length r)%nat -> span_fraction r (r_nd r).
Proof.
  intros HI HL. split; [apply r_nd_length|]. intros k Hk. rewrite nth_r_nd by exact Hk.
  pose proof (HI 0%nat (length r - 1)%nat ltac:(lia)). field. lra.
Qed.

Lemma to_opt_resampled i v : increasing (g_r (wi_args i)) -> (2 <= length (g_r (wi_args i)))%nat ->
  length v = length (g_r (wi_args i)) -> resampled (g_r (wi_args i)) (wi_s_opt i) v (to_opt i v).
Proof.
  intros HI HL HV c HC. pose proof (Forall2_len _ _ _ HC) as LC.
  exists (r_nd (g_r (wi_args i))). eexists. split; [unfold to_opt; rewrite (fvals_complete _ _ HC); reflexivity|].
  split; [apply r_nd_fraction; assumption|]. split; [apply map_length|]. intros j Hj.
  rewrite (nth_indep (map _ _) 0 (interp 0 (r_nd (g_r (wi_args i))) c)) by (rewrite map_length; exact Hj).
  rewrite (map_nth (fun x => interp x (r_nd (g_r (wi_args i))) c)). apply interp_polygon.
  - apply r_nd_increasing; assumption.
  - rewrite r_nd_length. lia.
  - intros E. apply (f_equal (@length R)) in E. rewrite r_nd_length in E. cbn in E. lia.
Qed.

Lemma nan_to_num_list W : without_nan W (map nan_to_num W).
Proof.
  split; [apply map_length|]. intros k Hk. change (Fin 1) with (nan_to_num (Fin 1)) at 2 4. rewrite map_nth.
  split; [intros ->; reflexivity|]. destruct (nth k W (Fin 1)); intros H; try reflexivity. congruence.
Qed.

Lemma one_condition npi bq b c b' ys w : evaluate npi bq b [c] = Ok (b', ys, w) -> exists y, ys = [y].
Proof.
  intros H. unfold evaluate in H. destruct c as [[U Om] p]. cbn [condition_loop] in H. apply bind_ok in H. destruct H as (((b1 & ts) & W) & H1 & H2).
  apply bind_ok in H1. destruct H1 as (((b2 & t) & W2) & _ & H1). cbn [bind] in H1. apply ok_inj in H1.
  apply (f_equal (fun x => snd (fst x))) in H1. cbn [fst snd] in H1. subst ts. destruct W; [|discriminate H2].
  apply ok_inj in H2. apply (f_equal (fun x => snd (fst x))) in H2. cbn [fst snd combine map] in H2. eexists. symmetry. exact H2.
Qed.

Lemma dal_length npi bq b U Om p az b' ls : distributedAeroLoads npi bq b U Om p az = Ok (b', ls) -> length ls = length (b_r b).
Proof.
  intros E1. unfold distributedAeroLoads in E1. destruct (negb (shapes_ok b)); [discriminate|]. cbv zeta in E1.
  apply bind_ok in E1. destruct E1 as (ou & EM & E1). apply ok_inj in E1. apply (f_equal snd) in E1. cbn [snd] in E1. subst ls.
  rewrite map_length. pose proof (mapM_length _ _ _ EM) as X. rewrite seq_length in X. exact X.
Qed.

Section T.
Variable npi : R.
Variable bq : rootfinder fl.
Variable alpha1 : nat -> res R.
Variable smooth : list R -> list R -> list fl -> list fl.

Lemma twist_outputs : forall o i prev y, let r := g_r (wi_args i) in twist_compute npi bq alpha1 smooth o i prev = Ok y ->
  exists b b1 ls b2 y0 W, twist_design npi bq alpha1 smooth o i = Ok b /\
    distributedAeroLoads npi bq b (wi_Uhub i) (twist_Omega i) (wi_pitch i) 0 = Ok (b1, ls) /\
    evaluate npi bq b1 [(wi_Uhub i, twist_Omega i, wi_pitch i)] = Ok (b2, [y0], W) /\
    wt_CP y = option_map y_CP y0 /\ wt_CM y = option_map y_CMb y0 /\ without_nan W (wt_W y) /\
    length ls = length r /\ length (wt_a y) = length r /\ length (wt_ap y) = length r /\
    (forall k l, nth_error ls k = Some l ->
       nth k (wt_a y) NaN = o_a l /\ nth k (wt_ap y) NaN = o_ap l /\ nth k (wt_alpha y) NaN = o_alpha l /\
       nth k (wt_cl y) NaN = o_cl l /\ nth k (wt_cd y) NaN = o_cd l /\
       (forall N, rep (o_Np l) N -> rep (nth k (wt_Pz_b y) NaN) 0) /\
       (length (wt_theta y) = length r -> rep (nth k (wt_Pz_af y) NaN) 0)) /\
    (increasing r -> (2 <= length r)%nat ->
       resampled r (wi_s_opt i) (wt_cl y) (wt_cl_opt y) /\ resampled r (wi_s_opt i) (wt_cd y) (wt_cd_opt y) /\
       (length (wt_theta y) = length r ->
          resampled r (wi_s_opt i) (wt_LiftF y) (wt_L_opt y) /\ resampled r (wi_s_opt i) (wt_DragF y) (wt_D_opt y))).
Proof.
  intros o i prev y r H. unfold twist_compute in H. apply bind_ok in H. destruct H as (b & ED & H).
  destruct (design_keeps _ _ _ _ _ _ _ ED) as (Hinv & _ & _ & Hlen). fold r in Hlen.
  unfold twist_finish in H. apply bind_ok in H. destruct H as ((b1 & ls) & E1 & H). apply bind_ok in H. destruct H as (((b2 & ys) & W) & E2 & H).
  destruct (one_condition _ _ _ _ _ _ _ E2) as (y0 & EY). rewrite EY in *. clear ys EY.
  assert (L : length ls = length r) by (rewrite (dal_length _ _ _ _ _ _ _ _ _ E1); exact Hlen).
  cbv zeta in H. apply ok_inj in H. exists b, b1, ls, b2, y0, W. split; [exact ED|]. split; [exact E1|]. split; [exact E2|].
  rewrite <- H. clear H.
  cbn [wt_CP wt_CM wt_W wt_a wt_ap wt_alpha wt_cl wt_cd wt_Pz_b wt_Pz_af wt_theta wt_cl_opt wt_cd_opt wt_LiftF wt_DragF wt_L_opt wt_D_opt nth].
  split; [reflexivity|]. split; [reflexivity|]. split; [apply nan_to_num_list|]. split; [exact L|].
  split; [rewrite map_length; exact L|]. split; [rewrite map_length; exact L|]. split.
  - intros k l Hk. assert (MP : forall (f : sload fl -> fl), nth k (map f ls) NaN = f l).
    { intros f. apply nth_of_error. rewrite nth_error_map, Hk. reflexivity. }
    rewrite !MP. split; [reflexivity|]. split; [reflexivity|]. split; [reflexivity|]. split; [reflexivity|]. split; [reflexivity|].
    assert (Hk' : (k < length ls)%nat) by (apply nth_error_Some; congruence). split.
    + intros N HN. cbn [nmul fl_arith]. replace 0 with (0 * N) at 2 by ring. apply rep_mul; [reflexivity|exact HN].
    + intros HT. match goal with |- rep (nth k (map ?f ?l) NaN) 0 => replace (nth k (map f l) NaN) with (Fin 0); [reflexivity|]; set (P := l) end.
      assert (LP : (k < length P)%nat) by (unfold P; rewrite map_length, combine_length, map_length; lia).
      symmetry. rewrite (nth_indep _ NaN (Fin 0)) by (rewrite map_length; exact LP).
      generalize P. clear. intros P. revert k. induction P as [|x P IH]; intros [|k]; try reflexivity. apply IH.
  - intros HI H2. split; [apply to_opt_resampled; try assumption; rewrite map_length; exact L|].
    split; [apply to_opt_resampled; try assumption; rewrite map_length; exact L|].
    intros HT. split; apply to_opt_resampled; try assumption; rewrite !map_length, combine_length, combine_length, map_length; unfold r in *; lia.
Qed.
End T.
