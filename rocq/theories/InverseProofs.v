(** Inverse analysis (C42). *)
From Coq Require Import Reals Bool Arith List Lra Lia.
From Verif Require Import Prelim Num Bem Blade BladeSpec FlProofs StationProofs StationLoads BladeProofs SectorProofs.
Import ListNotations.
Open Scope R_scope.

Lemma inverse_twist (v al p : R) : exists t, rep (fsub (fsub (Fin v) (Fin al)) (Fin p)) t /\ t = v - al - p.
Proof. eexists. split; [reps|reflexivity]. Qed.

Lemma inverse_angle : forall npi bq rt rot r chord cl cd al af Vx Vy theta l p,
  1 / 10 < npi -> root_inside bq -> rt_pitch rt = Fin p ->
  solve_station_inverse npi bq rt rot r chord cl cd (Fin al) af Vx Vy = Ok (theta, l) ->
  (exists t, rep theta t) /\
  (rep (o_alpha l) (degrees al) \/ (o_Np l = Fin 0 /\ o_Tp l = Fin 0 /\ o_alpha l = Fin 0)).
Proof.
  intros npi bq rt rot r chord cl cd al af Vx Vy theta l p Hn Hb Hp H.
  unfold solve_station_inverse in H. apply bind_ok in H. destruct H as (phi & H1 & H2).
  apply bind_ok in H2. destruct H2 as (l0 & H2 & H3). apply bind_ok in H3. destruct H3 as (l1 & H3 & H4).
  apply ok_inj in H4. injection H4; intros -> <-. clear H4.
  assert (Hv : exists v, phi = Fin v).
  { destruct rot; [|apply ok_inj in H1; eauto]. destruct (rt_iterRe rt); [discriminate|].
    exact (solve_finite _ _ _ _ Hn Hb H1). }
  destruct Hv as (v & ->). rewrite Hp in *. cbn [nsub fl_arith] in *.
  destruct (inverse_twist v al p) as (t & Ht & Et). split; [eauto|].
  apply nan_guard_cases in H3. destruct H3 as [[_ ->]|[_ [_ ->]]]; [|right; auto].
  apply loads_alpha in H2. destruct H2 as [->|H2]; [right; auto|].
  left. rewrite H2, Hp. cbn [s_theta nsub nadd nmul ofR fl_arith]. unfold rad2deg. cbn [nmul ofR fl_arith].
  replace (degrees al) with ((v - (t + p)) * (180 / PI)) by (subst t; unfold degrees; unfold Rdiv; ring).
  reps.
Qed.

Lemma inverse_residual : forall rt (r chord cl cd Vx Vy : fl) (af : airfoil fl) (al p phi : R) m,
  rt_pitch rt = Fin p -> (forall al' Re', rep al' al -> af al' Re' = (cl, cd)) ->
  forall theta, rep theta (phi - al - p) ->
  errf rt (mkSect r chord theta af Vx Vy) m (Fin phi) = errf_inverse rt r chord cl cd Vx Vy (Fin phi).
Proof.
  intros rt r chord cl cd Vx Vy af al p phi m Hp Haf theta Ht.
  assert (P : forall a ap, bem_pass rt (mkSect r chord theta af Vx Vy) (Fin phi) a ap =
    let '(fz, a', ap') := inductionFactors (rt_opts rt) (rt_B rt) r chord (rt_Rhub rt) (rt_Rtip rt) (Fin phi) cl cd Vx Vy in
    (fz, a', ap', cl, cd)).
  { intros a ap. unfold bem_pass.
    match goal with |- context [relativeWind ?f ?a ?ap ?x ?y ?p ?c ?t ?r ?m] =>
      pose proof (rel_alpha f a ap x y p c t r m) as E; destruct (relativeWind f a ap x y p c t r m) as ((al0 & W0) & Re0) end.
    cbn [fst] in E. cbn [s_af s_r s_chord s_Vx s_Vy s_theta] in *. rewrite Haf; [reflexivity|].
    rewrite E, Hp. cbn [nsub nadd fl_arith]. replace al with (phi - (phi - al - p + p)) by ring. reps. }
  unfold errf, errf_inverse.
  assert (Q : bem_loop rt (mkSect r chord theta af Vx Vy) (Fin phi) m =
    let '(fz, a', ap') := inductionFactors (rt_opts rt) (rt_B rt) r chord (rt_Rhub rt) (rt_Rtip rt) (Fin phi) cl cd Vx Vy in
    (fz, a', ap', cl, cd)).
  { destruct m; cbn [bem_loop]; [apply P|]. destruct (bem_loop rt _ _ m) as ((((x1 & x2) & x3) & x4) & x5). apply P. }
  rewrite Q. destruct (inductionFactors _ _ _ _ _ _ _ _ _ _ _) as ((fz & a) & ap). reflexivity.
Qed.

(** The same for a whole blade: every station of a call in inverse mode. *)
Lemma inverse_call : forall npi bq b U Om p az b' ls,
  1 / 10 < npi -> root_inside bq -> b_inverse b = true ->
  distributedAeroLoads npi bq b U Om p az = Ok (b', ls) ->
  length ls = length (b_r b) /\ length (b_theta b') = length (b_r b) /\
  forall i l, nth_error ls i = Some l -> exists al, nth_error (b_alpha b) i = Some al /\
    (rep (o_alpha l) (degrees al) \/ (o_Np l = Fin 0 /\ o_Tp l = Fin 0 /\ o_alpha l = Fin 0)).
Proof.
  intros npi bq b U Om p az b' ls Hn Hb Hi H.
  unfold distributedAeroLoads in H. destruct (negb (shapes_ok b)); [discriminate|].
  apply bind_ok in H. destruct H as (out & H & E). rewrite Hi in E. apply ok_inj in E. injection E; intros <- <-. clear E.
  apply mapM_ok in H. pose proof (Forall2_len _ _ _ H) as HL. rewrite seq_length in HL.
  cbn [set_call b_theta]. rewrite !map_length. split; [auto|]. split; [auto|].
  intros i l El. rewrite nth_error_map in El. destruct (nth_error out i) as [[th l']|] eqn:Eo; [|discriminate].
  injection El; intros <-. destruct (Forall2_nth_error _ _ _ _ _ H Eo) as (j & J & S).
  assert (Hlt : (i < length (b_r b))%nat).
  { rewrite <- (seq_length (length (b_r b)) 0). apply nth_error_Some. rewrite J. discriminate. }
  apply (nth_error_nth _ _ 0%nat) in J. rewrite seq_nth in J by assumption. cbn in J. subst j.
  unfold station_i in S. rewrite Hi in S. cbv zeta in S.
  apply bind_ok in S. destruct S as (r & _ & S). apply bind_ok in S. destruct S as (c & _ & S).
  apply bind_ok in S. destruct S as (af & _ & S). apply bind_ok in S. destruct S as (cl & _ & S).
  apply bind_ok in S. destruct S as (cd & _ & S). apply bind_ok in S. destruct S as (al & EA & S).
  exists al. split.
  - unfold pyget in EA. destruct (nth_error (b_alpha b) i); [apply ok_inj in EA; subst; reflexivity|discriminate].
  - cbn [snd]. exact (proj2 (inverse_angle npi bq (rotor_of b (radians p)) _ _ _ _ _ _ _ _ _ _ _ (radians p) Hn Hb eq_refl S)).
Qed.
