(** Loads of a section as resolved lift and drag (C25). *)
From Coq Require Import Reals Bool Arith Lia Lra.
From Verif Require Import Prelim Num Bem Blade IndSpec FlProofs BladeSpec StationProofs.
Open Scope R_scope.

Lemma rep_zero_val x : rep (Fin 0) x -> x = 0.
Proof. intros H. injection H; auto. Qed.

Lemma rep_fun a x y : rep a x -> rep a y -> x = y.
Proof. unfold rep. intros H1 H2. rewrite H1 in H2. injection H2; auto. Qed.

Lemma rep_isnan x v : rep x v -> isnan x = false.
Proof.
  intros H. unfold isnan. change (neq x x) with (feq x x). rewrite (rep_eq _ _ _ _ H H).
  replace (reqb v v) with true by (symmetry; apply reqb_true; reflexivity). reflexivity.
Qed.

Ltac reps := repeat first [eassumption | apply rep_Fin | apply rep_add | apply rep_sub | apply rep_mul
                          | apply rep_sin | apply rep_cos | apply rep_neg].

Lemma loads_resolve rt (v : R) rot (sc : sect fl) l t p c rho cl cd W :
  rep (s_theta sc) t -> rep (rt_pitch rt) p -> rep (s_chord sc) c -> rep (rt_rho rt) rho ->
  loads rt (Fin v) rot sc = Ok l -> rep (o_cl l) cl -> rep (o_cd l) cd -> rep (o_W l) W ->
  l = zero_load \/
  (rep (o_alpha l) (degrees (v - (t + p))) /\
   rep (o_cn l) (fst (resolve cl cd v)) /\ rep (o_ct l) (snd (resolve cl cd v)) /\
   rep (o_q l) (dynamic_pressure rho W) /\
   rep (o_Np l) (dynamic_pressure rho W * c * fst (resolve cl cd v)) /\
   rep (o_Tp l) (dynamic_pressure rho W * c * snd (resolve cl cd v))).
Proof.
  intros Ht Hp Hc Hr. unfold loads. destruct (andb _ _); [|intros E; apply ok_inj in E; auto].
  intros E. apply bind_ok in E. destruct E as (((( a & ap) & cl') & cd') & _ & E).
  match type of E with context [relativeWind ?phi ?a ?ap ?Vx ?Vy ?p ?c ?t ?r ?m] =>
    pose proof (rel_alpha phi a ap Vx Vy p c t r m) as Ha end.
  cbv beta iota zeta in E.
  destruct (relativeWind _ _ _ _ _ _ _ _ _ _) as ((alpha & W') & Re).
  cbn [fst] in Ha. apply ok_inj in E. rewrite <- E. cbn [o_cl o_cd o_W o_alpha o_cn o_ct o_q o_Np o_Tp].
  intros Hcl Hcd HW. right. unfold resolve, dynamic_pressure. cbn [fst snd].
  cbn [ofR nmul nsub nadd ncos nsin fl_arith] in *.
  assert (Q : rep (fmul (fmul (Fin (1 / 2)) (rt_rho rt)) (fmul W' W')) (rho * W ^ 2 / 2)).
  { replace (rho * W ^ 2 / 2) with (1 / 2 * rho * (W * W)) by field. reps. }
  assert (CN : rep (fadd (fmul cl' (fcos (Fin v))) (fmul cd' (fsin (Fin v)))) (cl * cos v + cd * sin v)) by reps.
  assert (CT : rep (fsub (fmul cl' (fsin (Fin v))) (fmul cd' (fcos (Fin v)))) (cl * sin v - cd * cos v)) by reps.
  split; [|split; [exact CN|split; [exact CT|split; [exact Q|split]]]].
  - rewrite Ha. unfold rad2deg, degrees. cbn [nmul ofR fl_arith]. reps.
  - replace (rho * W ^ 2 / 2 * c * (cl * cos v + cd * sin v)) with
      ((cl * cos v + cd * sin v) * (rho * W ^ 2 / 2) * c) by ring. reps.
  - replace (rho * W ^ 2 / 2 * c * (cl * sin v - cd * cos v)) with
      ((cl * sin v - cd * cos v) * (rho * W ^ 2 / 2) * c) by ring. reps.
Qed.

Lemma radians_degrees x : radians (degrees x) = x.
Proof. unfold radians, degrees. field. pose proof PI_RGT_0. lra. Qed.

(** Loads after the NaN guard. *)
Lemma guarded_resolve rt (v : R) rot (sc : sect fl) l0 l t p c rho cl cd W al :
  rep (s_theta sc) t -> rep (rt_pitch rt) p -> rep (s_chord sc) c -> rep (rt_rho rt) rho ->
  loads rt (Fin v) rot sc = Ok l0 -> nan_guard rot l0 = Ok l ->
  rep (o_cl l) cl -> rep (o_cd l) cd -> rep (o_W l) W -> rep (o_alpha l) al ->
  let phi := radians al + t + p in
   rep (o_cn l) (fst (resolve cl cd phi)) /\ rep (o_ct l) (snd (resolve cl cd phi)) /\
   rep (o_q l) (dynamic_pressure rho W) /\
   rep (o_Np l) (dynamic_pressure rho W * c * fst (resolve cl cd phi)) /\
   rep (o_Tp l) (dynamic_pressure rho W * c * snd (resolve cl cd phi)).
Proof.
  intros Ht Hp Hc Hr E G Hcl Hcd HW Hal phi.
  assert (H : rep (o_cl l0) cl /\ rep (o_cd l0) cd /\ rep (o_W l0) W).
  { apply nan_guard_cases in G. destruct G as [[_ ->]|(_ & _ & ->)]; cbn [o_cl o_cd o_W] in *; auto. }
  destruct H as (H1 & H2 & H3).
  destruct (loads_resolve _ _ _ _ _ _ _ _ _ _ _ _ Ht Hp Hc Hr E H1 H2 H3) as [->|HL].
  - rewrite zero_load_guard in G. apply ok_inj in G. subst l.
    unfold zero_load in *. cbn [o_cl o_cd o_W o_alpha o_cn o_ct o_q o_Np o_Tp ofR fl_arith] in *.
    apply rep_zero_val in Hcl, Hcd, HW. subst. unfold resolve, dynamic_pressure. cbn [fst snd].
    repeat split; unfold rep; cbn [fval]; apply f_equal; unfold Rdiv; ring.
  - destruct HL as (A1 & A2 & A3 & A4 & A5 & A6).
    unfold nan_guard in G. rewrite (rep_isnan _ _ A5) in G. apply ok_inj in G. subst l0.
    pose proof (rep_fun _ _ _ Hal A1) as ->. subst phi. rewrite radians_degrees.
    replace (v - (t + p) + t + p) with v by ring. tauto.
Qed.

Lemma solve_finite npi (bq : rootfinder fl) f phi : 1 / 10 < npi -> root_inside bq ->
  solve npi bq f = Ok phi -> exists v, phi = Fin v.
Proof.
  intros Hp Hb H. destruct (solve_bracket _ _ _ _ Hp Hb H) as (lo & hi & _ & [[_ (v & -> & _)]|[_ ->]]); eauto.
Qed.

Lemma station_resolve : forall npi bq rt rot (sc : sect fl) l t p c rho cl cd W al,
  1 / 10 < npi -> root_inside bq ->
  rep (s_theta sc) t -> rep (rt_pitch rt) p -> rep (s_chord sc) c -> rep (rt_rho rt) rho ->
  solve_station npi bq rt rot sc = Ok l ->
  rep (o_cl l) cl -> rep (o_cd l) cd -> rep (o_W l) W -> rep (o_alpha l) al ->
  let phi := radians al + t + p in
   rep (o_cn l) (fst (resolve cl cd phi)) /\ rep (o_ct l) (snd (resolve cl cd phi)) /\
   rep (o_q l) (dynamic_pressure rho W) /\
   rep (o_Np l) (dynamic_pressure rho W * c * fst (resolve cl cd phi)) /\
   rep (o_Tp l) (dynamic_pressure rho W * c * snd (resolve cl cd phi)).
Proof.
  intros npi bq rt rot sc l t p c rho cl cd W al Hn Hb Ht Hp Hc Hr H Hcl Hcd HW Hal.
  unfold solve_station in H. apply bind_ok in H. destruct H as (phi & H0 & H).
  apply bind_ok in H. destruct H as (l0 & H1 & H2).
  assert (Hphi : exists v, phi = Fin v).
  { destruct rot; [|apply ok_inj in H0; subst; eexists; reflexivity].
    destruct (rt_iterRe rt); [discriminate|]. eapply solve_finite; eassumption. }
  destruct Hphi as (v & ->). eapply guarded_resolve; eassumption.
Qed.

Lemma station_resolve_inverse : forall npi bq rt rot r chord cl0 cd0 alpha af Vx Vy theta l t p c rho cl cd W al,
  1 / 10 < npi -> root_inside bq ->
  rep theta t -> rep (rt_pitch rt) p -> rep chord c -> rep (rt_rho rt) rho ->
  solve_station_inverse npi bq rt rot r chord cl0 cd0 alpha af Vx Vy = Ok (theta, l) ->
  rep (o_cl l) cl -> rep (o_cd l) cd -> rep (o_W l) W -> rep (o_alpha l) al ->
  let phi := radians al + t + p in
   rep (o_cn l) (fst (resolve cl cd phi)) /\ rep (o_ct l) (snd (resolve cl cd phi)) /\
   rep (o_q l) (dynamic_pressure rho W) /\
   rep (o_Np l) (dynamic_pressure rho W * c * fst (resolve cl cd phi)) /\
   rep (o_Tp l) (dynamic_pressure rho W * c * snd (resolve cl cd phi)).
Proof.
  intros npi bq rt rot r chord cl0 cd0 alpha af Vx Vy theta l t p c rho cl cd W al Hn Hb Ht Hp Hc Hr H Hcl Hcd HW Hal.
  unfold solve_station_inverse in H. apply bind_ok in H. destruct H as (phi & H0 & H).
  cbv zeta in H.
  apply bind_ok in H. destruct H as (l0 & H1 & H).
  apply bind_ok in H. destruct H as (l1 & H2 & H). apply ok_inj in H.
  assert (Et : nsub (nsub phi alpha) (rt_pitch rt) = theta) by (apply (f_equal fst) in H; exact H).
  assert (El : l1 = l) by (apply (f_equal snd) in H; exact H). clear H. subst l1.
  assert (Hphi : exists v, phi = Fin v).
  { destruct rot; [|apply ok_inj in H0; subst; eexists; reflexivity].
    destruct (rt_iterRe rt); [discriminate|]. eapply solve_finite; eassumption. }
  destruct Hphi as (v & ->). rewrite Et in H1.
  eapply (guarded_resolve rt v rot (mkSect r chord theta af Vx Vy) l0); eassumption.
Qed.

Lemma station_recover : forall npi bq rt rot (sc : sect fl) l t p c rho cl cd W al Np Tp,
  1 / 10 < npi -> root_inside bq ->
  rep (s_theta sc) t -> rep (rt_pitch rt) p -> rep (s_chord sc) c -> rep (rt_rho rt) rho ->
  solve_station npi bq rt rot sc = Ok l ->
  rep (o_cl l) cl -> rep (o_cd l) cd -> rep (o_W l) W -> rep (o_alpha l) al ->
  rep (o_Np l) Np -> rep (o_Tp l) Tp ->
  let phi := radians al + t + p in
  let q := rho * W ^ 2 / 2 in
  Np ^ 2 + Tp ^ 2 = (q * c) ^ 2 * (cl ^ 2 + cd ^ 2) /\
  Np * sin phi - Tp * cos phi = q * c * cd /\
  Np * cos phi + Tp * sin phi = q * c * cl.
Proof.
  intros npi bq rt rot sc l t p c rho cl cd W al Np Tp Hn Hb Ht Hp Hc Hr H Hcl Hcd HW Hal HN HT phi q.
  destruct (station_resolve npi bq rt rot sc l t p c rho cl cd W al Hn Hb Ht Hp Hc Hr H Hcl Hcd HW Hal)
    as (_ & _ & _ & HN' & HT'). fold phi in HN', HT'.
  apply (rep_fun _ _ _ HN) in HN'. apply (rep_fun _ _ _ HT) in HT'. rewrite HN', HT'.
  unfold resolve, dynamic_pressure. cbn [fst snd]. fold q.
  pose proof (sin2_cos2 phi) as S. unfold Rsqr in S. set (s := sin phi) in *. set (k := cos phi) in *.
  assert (S' : s * s = 1 - k * k) by lra. repeat split; ring [S'].
Qed.

Lemma parked_example : forall npi bq mu, exists l, solve_station npi bq (mkRotor (Fin (1 / 2)) (Fin 3) 2 (Fin 1) mu (mkOpts false false false false) 1 (Fin 0)) false
    (mkSect (Fin 1) (Fin 2) (Fin (1 / 10)) (fun _ _ => (Fin 1, Fin (1 / 2))) (Fin 3) (Fin 4)) = Ok l /\
  rep (o_cl l) 1 /\ rep (o_cd l) (1 / 2) /\ rep (o_W l) 5 /\ exists al, rep (o_alpha l) al.
Proof.
  intros npi bq mu. unfold solve_station. cbn [bind]. unfold loads.
  cbn [s_Vx s_Vy neq ofR fl_arith].
  assert (E1 : feq (Fin 3) (Fin 0) = false) by (cbn; apply reqb_false; lra).
  assert (E2 : feq (Fin 4) (Fin 0) = false) by (cbn; apply reqb_false; lra).
  rewrite E1, E2. cbn [negb andb s_af s_theta s_chord rt_rho rt_mu rt_pitch].
  unfold relativeWind. cbv beta iota zeta. cbn [bind].
  cbn [nmul nadd nsub ndiv nsqrt ncos nsin nlt nabs ofR fl_arith fabs flt fval].
  rewrite Rabs_R0. replace (rltb 10 0) with false by (symmetry; apply rltb_false; lra).
  set (W := fsqrt _).
  assert (HW : rep W 5).
  { unfold W. rewrite <- (sqrt_pow2 5) by lra.
    replace (5 ^ 2) with (3 * (1 - 0) * (3 * (1 - 0)) + 4 * (1 + 0) * (4 * (1 + 0))) by ring. apply rep_sqrt; [reps|lra]. }
  match goal with |- context [nan_guard _ ?l] => set (L := l) end.
  assert (HN : exists v, rep (o_Np L) v).
  { eexists. unfold L. cbn [o_Np]. reps.
 }
  destruct HN as (v & HN). unfold nan_guard. rewrite (rep_isnan _ _ HN). exists L.
  split; [reflexivity|]. unfold L; cbn [o_cl o_cd o_W o_alpha]. split; [apply rep_Fin|]. split; [apply rep_Fin|].
  split; [assumption|]. eexists. unfold rad2deg. cbn [nmul ofR fl_arith]. reps.
Qed.
