(** Inverse design followed by analysis (C42). *)
From Coq Require Import Reals Bool Arith List Lra Lia.
From Verif Require Import Prelim Num Bem Blade BladeSpec FlProofs StationProofs StationLoads BladeProofs SectorProofs InverseProofs BladeDvProofs Component TwistProofs.
Import ListNotations.
Open Scope R_scope.

(** The root finder returns zeros. *)
Definition finds_zeros (bq : rootfinder fl) : Prop := forall f a b v, bq f a b = Ok v -> rep (f v) 0.

Lemma solve_zero npi (bq : rootfinder fl) f v : 1 / 10 < npi -> root_inside bq -> finds_zeros bq -> solve npi bq f = Ok (Fin v) ->
  v <> 0 \/ (forall lo hi, documented_bracket npi f lo hi -> bq f (Fin lo) (Fin hi) <> Raise ValueError) ->
  rep (f (Fin v)) 0 /\ - npi / 4 <= v <= npi.
Proof.
  intros Hn Hr Hz H Hv. destruct (solve_bracket _ _ _ _ Hn Hr H) as (lo & hi & D & [(E & w & Ew & Hw)|(E & F)]).
  - injection Ew; intros <-. split; [exact (Hz _ _ _ _ E)|]. destruct D; lra.
  - exfalso. destruct Hv as [Hv|Hv]; [injection F; intros; lra|exact (Hv lo hi D E)].
Qed.

(** What a station of an inverse call did. *)
Lemma inverse_station npi bq b U Om p az b' ls i : b_inverse b = true -> distributedAeroLoads npi bq b U Om p az = Ok (b', ls) -> (i < length (b_r b))%nat ->
  exists r c af cl cd al t l, nth_error (b_r b) i = Some r /\ nth_error (b_chord b) i = Some c /\ nth_error (b_af b) i = Some af /\
    nth_error (b_cl b) i = Some cl /\ nth_error (b_cd b) i = Some cd /\ nth_error (b_alpha b) i = Some al /\
    nth_error (b_theta b') i = Some t /\ nth_error ls i = Some l /\
    let V := wind b U Om (radians az) in
    solve_station_inverse npi bq (rotor_of b (radians p)) (negb (reqb Om 0)) (Fin r) (Fin c) (Fin cl) (Fin cd) (Fin al) af (Fin (fst V i)) (Fin (snd V i)) = Ok (t, l).
Proof.
  intros Hi H Hlt. unfold distributedAeroLoads in H. destruct (negb (shapes_ok b)); [discriminate|]. cbv zeta in H.
  apply bind_ok in H. destruct H as (out & EM & H). rewrite Hi in H. apply ok_inj in H. injection H; intros <- <-. clear H.
  assert (L : length out = length (b_r b)) by (pose proof (mapM_length _ _ _ EM) as X; rewrite seq_length in X; exact X).
  destruct (nth_error out i) as [(t & l)|] eqn:Eo; [|apply nth_error_None in Eo; lia].
  pose proof (mapM_nth _ _ _ 0%nat (Fin 0, zero_load) EM i ltac:(rewrite seq_length; lia)) as S.
  rewrite seq_nth in S by lia. cbn [Nat.add] in S. rewrite (nth_of_error _ _ _ _ Eo) in S.
  unfold station_i in S. rewrite Hi in S. cbv zeta in S.
  assert (G : forall X (l : list X) x, pyget l i = Ok x -> nth_error l i = Some x).
  { intros X l0 x E. unfold pyget in E. destruct (nth_error l0 i); [apply ok_inj in E; congruence|discriminate]. }
  apply bind_ok in S. destruct S as (r & E1 & S). apply bind_ok in S. destruct S as (c & E2 & S).
  apply bind_ok in S. destruct S as (af & E3 & S). apply bind_ok in S. destruct S as (cl & E4 & S).
  apply bind_ok in S. destruct S as (cd & E5 & S). apply bind_ok in S. destruct S as (al & E6 & S).
  exists r, c, af, cl, cd, al, t, l. cbn [set_call b_theta]. rewrite !nth_error_map, Eo. cbn [option_map fst snd].
  refine (conj (G _ _ _ E1) (conj (G _ _ _ E2) (conj (G _ _ _ E3) (conj (G _ _ _ E4) (conj (G _ _ _ E5) (conj (G _ _ _ E6) (conj eq_refl (conj eq_refl S)))))))).
Qed.

Lemma inverse_zero npi bq rt m r chord cl cd al af Vx Vy theta l p : 1 / 10 < npi -> root_inside bq -> finds_zeros bq ->
  rt_pitch rt = Fin p -> rt_iterRe rt = S m -> (forall al' Re', rep al' al -> af al' Re' = (cl, cd)) ->
  solve_station_inverse npi bq rt true r chord cl cd (Fin al) af Vx Vy = Ok (theta, l) ->
  exists t, rep theta t /\ (t + al + p <> 0 -> rep (errf rt (mkSect r chord theta af Vx Vy) m (Fin (t + al + p))) 0 /\ - npi / 4 <= t + al + p <= npi).
Proof.
  intros Hn Hb Hz Hp Hm Haf H. unfold solve_station_inverse in H. rewrite Hm in H. apply bind_ok in H. destruct H as (phi & H1 & H2).
  destruct (solve_finite _ _ _ _ Hn Hb H1) as (v & ->).
  apply bind_ok in H2. destruct H2 as (l0 & H2 & H3). apply bind_ok in H3. destruct H3 as (l1 & H3 & H4).
  apply ok_inj in H4. apply pair_equal_spec in H4. destruct H4 as (<- & _). rewrite Hp in *. cbn [nsub fl_arith] in *.
  destruct (inverse_twist v al p) as (t & Ht & Et). exists t. split; [exact Ht|].
  replace (t + al + p) with v by lra. intros Hv.
  rewrite (inverse_residual rt r chord cl cd Vx Vy af al p v m Hp Haf _ (eq_ind _ (rep _) Ht _ Et)).
  exact (solve_zero _ _ _ _ Hn Hb Hz H1 (or_introl Hv)).
Qed.

(** C42: the inflow angle behind the stored twist solves the equations of analysis with that twist. *)
Lemma inverse_solves : forall npi bq b U Om p az b' ls i r c af cl cd al t,
  1 / 10 < npi -> root_inside bq -> finds_zeros bq -> b_inverse b = true -> Om <> 0 ->
  distributedAeroLoads npi bq b U Om p az = Ok (b', ls) ->
  nth_error (b_r b) i = Some r -> nth_error (b_chord b) i = Some c -> nth_error (b_af b) i = Some af ->
  nth_error (b_cl b) i = Some cl -> nth_error (b_cd b) i = Some cd -> nth_error (b_alpha b) i = Some al ->
  (forall al' Re', rep al' al -> af al' Re' = (Fin cl, Fin cd)) ->
  rep (nth i (b_theta b') NaN) t -> t + al + radians p <> 0 ->
  exists m, b_iterRe b' = S m /\
  let V := wind b' U Om (radians az) in
  rep (errf (rotor_of b' (radians p)) (mkSect (Fin r) (Fin c) (nth i (b_theta b') NaN) af (Fin (fst V i)) (Fin (snd V i))) m
    (Fin (t + al + radians p))) 0 /\ - npi / 4 <= t + al + radians p <= npi.
Proof.
  intros npi bq b U Om p az b' ls i r c af cl cd al t Hn Hb Hz Hi HO H E1 E2 E3 E4 E5 E6 Haf Ht Hne.
  assert (Hlt : (i < length (b_r b))%nat) by (apply nth_error_Some; congruence).
  destruct (inverse_station _ _ _ _ _ _ _ _ _ _ Hi H Hlt) as (r' & c' & af' & cl' & cd' & al' & t' & l & F1 & F2 & F3 & F4 & F5 & F6 & Et & _ & S).
  cbv zeta in S. replace r' with r in * by congruence. replace c' with c in * by congruence. replace af' with af in * by congruence.
  replace cl' with cl in * by congruence. replace cd' with cd in * by congruence. replace al' with al in * by congruence.
  replace (reqb Om 0) with false in S by (symmetry; apply reqb_false; exact HO). cbn [negb] in S.
  assert (Hm : exists m, b_iterRe b = Datatypes.S m).
  { unfold solve_station_inverse in S. cbn [rotor_of rt_iterRe] in S. destruct (b_iterRe b) as [|m]; [discriminate S|]. eauto. }
  destruct Hm as (m & Hm).
  assert (Eb : b' = set_call b (b_theta b') (radians p)).
  { unfold distributedAeroLoads in H. destruct (negb (shapes_ok b)); [discriminate|]. cbv zeta in H. apply bind_ok in H. destruct H as (out & _ & H).
    apply ok_inj in H. apply pair_equal_spec in H. destruct H as (<- & _). reflexivity. }
  exists m. split; [rewrite Eb; exact Hm|]. cbv zeta.
  rewrite (nth_of_error _ _ _ NaN Et) in Ht |- *.
  destruct (inverse_zero npi bq (rotor_of b (radians p)) m _ _ _ _ al af _ _ t' l (radians p) Hn Hb Hz eq_refl Hm Haf S) as (t0 & Ht0 & Z).
  assert (t0 = t) by (unfold rep in Ht, Ht0; congruence). subst t0. specialize (Z Hne). rewrite Eb. exact Z.
Qed.

(** C42: analysing the designed blade gives the requested angle of attack, unless that equation has two
    solutions in the searched range, the root finder refuses, or the station reports zero loads. *)
Definition as_designed (b : blade) : blade := set_inverse b false (b_theta b) (b_cl b) (b_cd b) (b_alpha b).
Lemma designed_angle : forall npi bq b U Om p az b' ls b2 ls2 i r c af cl cd al t l,
  1 / 10 < npi -> root_inside bq -> finds_zeros bq -> b_inverse b = true -> Om <> 0 ->
  distributedAeroLoads npi bq b U Om p az = Ok (b', ls) ->
  distributedAeroLoads npi bq (as_designed b') U Om p az = Ok (b2, ls2) ->
  nth_error (b_r b) i = Some r -> nth_error (b_chord b) i = Some c -> nth_error (b_af b) i = Some af ->
  nth_error (b_cl b) i = Some cl -> nth_error (b_cd b) i = Some cd -> nth_error (b_alpha b) i = Some al ->
  (forall al' Re', rep al' al -> af al' Re' = (Fin cl, Fin cd)) ->
  rep (nth i (b_theta b') NaN) t -> t + al + radians p <> 0 ->
  let V := wind b' U Om (radians az) in
  let sc := mkSect (Fin r) (Fin c) (nth i (b_theta b') NaN) af (Fin (fst V i)) (Fin (snd V i)) in
  nth_error ls2 i = Some l ->
  rep (o_alpha l) (degrees al) \/ (o_Np l = Fin 0 /\ o_Tp l = Fin 0 /\ o_alpha l = Fin 0) \/
  exists m, b_iterRe b' = S m /\
    ((exists v v', v <> v' /\ - npi / 4 <= v <= npi /\ - npi / 4 <= v' <= npi /\
       rep (errf (rotor_of b' (radians p)) sc m (Fin v)) 0 /\ rep (errf (rotor_of b' (radians p)) sc m (Fin v')) 0) \/
     (exists lo hi, documented_bracket npi (errf (rotor_of b' (radians p)) sc m) lo hi /\
       bq (errf (rotor_of b' (radians p)) sc m) (Fin lo) (Fin hi) = Raise ValueError)).
Proof.
  intros npi bq b U Om p az b' ls b2 ls2 i r c af cl cd al t l Hn Hb Hz Hi HO H H2 E1 E2 E3 E4 E5 E6 Haf Ht Hne V sc El.
  destruct (inverse_solves npi bq b U Om p az b' ls i r c af cl cd al t Hn Hb Hz Hi HO H E1 E2 E3 E4 E5 E6 Haf Ht Hne) as (m & Hm & Z & ZI).
  cbv zeta in Z. fold V in Z. fold sc in Z.
  assert (Hlt : (i < length (b_r b))%nat) by (apply nth_error_Some; congruence).
  assert (Eb : b' = set_call b (b_theta b') (radians p)).
  { unfold distributedAeroLoads in H. destruct (negb (shapes_ok b)); [discriminate|]. cbv zeta in H. apply bind_ok in H. destruct H as (out & _ & H).
    apply ok_inj in H. apply pair_equal_spec in H. destruct H as (<- & _). reflexivity. }
  assert (S : solve_station npi bq (rotor_of b' (radians p)) true sc = Ok l).
  { unfold distributedAeroLoads in H2. destruct (negb (shapes_ok (as_designed b'))); [discriminate|]. cbv zeta in H2.
    apply bind_ok in H2. destruct H2 as (ys & EM & H2). apply ok_inj in H2. apply (f_equal snd) in H2. cbn [snd] in H2. subst ls2.
    rewrite nth_error_map in El. destruct (nth_error ys i) as [(th & l')|] eqn:EY; [|discriminate El]. cbn in El. injection El; intros ->.
    assert (Lr : length (b_r (as_designed b')) = length (b_r b)) by (rewrite Eb; reflexivity).
    pose proof (mapM_nth _ _ _ 0%nat (Fin 0, zero_load) EM i ltac:(rewrite seq_length; lia)) as S.
    rewrite seq_nth in S by lia. cbn [Nat.add] in S. rewrite (nth_of_error _ _ _ _ EY) in S.
    unfold station_i in S. cbv zeta in S. cbn [as_designed set_inverse b_r b_chord b_af b_inverse b_theta] in S.
    replace (reqb Om 0) with false in S by (symmetry; apply reqb_false; exact HO). cbn [negb] in S.
    apply bind_ok in S. destruct S as (r' & F1 & S). apply bind_ok in S. destruct S as (c' & F2 & S).
    apply bind_ok in S. destruct S as (af' & F3 & S). apply bind_ok in S. destruct S as (th' & F4 & S).
    apply bind_ok in S. destruct S as (l0 & ES & S). apply ok_inj in S. apply pair_equal_spec in S. destruct S as (<- & <-).
    assert (G : forall X (q : list X) x, pyget q i = Ok x -> nth_error q i = Some x).
    { intros X q x E. unfold pyget in E. destruct (nth_error q i); [apply ok_inj in E; congruence|discriminate]. }
    apply G in F1, F2, F3, F4. rewrite Eb in F1, F2, F3. cbn [set_call b_r b_chord b_af] in F1, F2, F3.
    replace r' with r in * by congruence. replace c' with c in * by congruence. replace af' with af in * by congruence.
    unfold sc. rewrite (nth_of_error _ _ _ NaN F4). exact ES. }
  unfold solve_station in S. cbn [rotor_of rt_iterRe] in S. rewrite Hm in S.
  apply bind_ok in S. destruct S as (phi & H1 & S). destruct (solve_finite _ _ _ _ Hn Hb H1) as (v & ->).
  match type of H1 with solve _ _ ?f = _ => change f with (errf (rotor_of b' (radians p)) sc m) in H1 end.
  destruct (solve_bracket _ _ _ _ Hn Hb H1) as (lo & hi & D & [(E & w & Ew & Hw)|(E & F)]); [|right; right; exists m; split; [exact Hm|]; right; eauto].
  injection Ew; intros <-. assert (Zv : rep (errf (rotor_of b' (radians p)) sc m (Fin v)) 0) by exact (Hz _ _ _ _ E).
  assert (Iv : - npi / 4 <= v <= npi) by (destruct D; lra).
  destruct (Req_dec v (t + al + radians p)) as [->|Hd];
    [|right; right; exists m; split; [exact Hm|]; left; exists v, (t + al + radians p); auto].
  apply bind_ok in S. destruct S as (l0 & S1 & S2).
  apply nan_guard_cases in S2. destruct S2 as [[_ ->]|[_ [_ ->]]]; [|right; left; auto].
  apply loads_alpha in S1. destruct S1 as [->|S1]; [right; left; auto|].
  left. rewrite S1. unfold sc. cbn [rotor_of rt_pitch s_theta nsub nadd fl_arith]. unfold rad2deg. cbn [nmul ofR fl_arith].
  replace (degrees al) with ((t + al + radians p - (t + radians p)) * (180 / PI)) by (unfold degrees; unfold Rdiv; ring).
  reps.
Qed.
