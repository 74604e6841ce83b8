(** C122, C123: the Reynolds number at which the airfoils are looked up.

    Anchors: ccblade/ccblade.py CCBlade.__runBEM, CCBlade.distributedAeroLoads, CCBlade.evaluate. *)
From Coquelicot Require Import Coquelicot.
From Coq Require Import Reals Bool Arith List Lra Lia Psatz.
From Verif Require Import Prelim Num Bem Blade BladeSpec IndSpec FlProofs StationProofs StationLoads SimilaritySpec SymmetryProofs SymmetryWitness InverseWitness BetzWitness ParkedSpec ParkedProofs
  ReSpec ReProofs PropsStation.
Import ListNotations.
Open Scope R_scope.

(** ** C122: iterRe has no effect if the airfoils do not depend on the Reynolds number *)
Theorem C122_section_loads : forall npi bq n g, Forall ignores_Re (g_af g) -> (1 <= g_iterRe g)%nat -> (1 <= n)%nat ->
  corresponds (fun b b' => forall U Om p az, section_loads npi bq b U Om p az = section_loads npi bq b' U Om p az)
    (construct g) (construct (with_iter n g)).
Proof.
  intros npi bq n g Haf H1 H2. rewrite construct_iter. destruct (construct g) as [b|e] eqn:E; [|reflexivity]. cbn [corresponds]. intros U Om p az.
  destruct (construct_attr g b E) as (A1 & A2 & A3). apply dal_iter; [exact A3|rewrite A1; exact Haf|rewrite A2; exact H1|exact H2].
Qed.
Print Assumptions C122_section_loads.

Theorem C122_rotor : forall npi bq n g, Forall ignores_Re (g_af g) -> (1 <= g_iterRe g)%nat -> (1 <= n)%nat ->
  corresponds (fun b b' => forall conds, returned (evaluate npi bq b conds) = returned (evaluate npi bq b' conds))
    (construct g) (construct (with_iter n g)).
Proof.
  intros npi bq n g Haf H1 H2. rewrite construct_iter. destruct (construct g) as [b|e] eqn:E; [|reflexivity]. cbn [corresponds]. intros conds.
  destruct (construct_attr g b E) as (A1 & A2 & A3). rewrite <- (map_id conds) at 1.
  apply (evaluate_same npi bq b (iter_blade n b) (fun c => c) A3 A3 eq_refl).
  - intros [[U Om] p] az. apply dal_iter; [exact A3|rewrite A1; exact Haf|rewrite A2; exact H1|exact H2].
  - reflexivity.
  - intros [[U Om] p] t. reflexivity.
Qed.
Print Assumptions C122_rotor.

(** With iterRe = 1, the default, only the airfoil's values at one Reynolds number matter at a station: that of the wind
    without induction. *)
Theorem C122_one_pass : forall npi bq rt rot sc af chord Vx Vy rho mu, rt_iterRe rt = 1%nat ->
  s_chord sc = Fin chord -> s_Vx sc = Fin Vx -> s_Vy sc = Fin Vy -> rt_rho rt = Fin rho -> rt_mu rt = Fin mu -> mu <> 0 ->
  (forall al Re, rep Re (reynolds rho mu chord Vx Vy) -> af al Re = s_af sc al Re) ->
  solve_station npi bq rt rot (with_af af sc) = solve_station npi bq rt rot sc.
Proof.
  intros npi bq rt rot sc af chord Vx Vy rho mu H1 Ec Ex Ey Er Em Hm H. apply station_af; [exact H1|]. intros al. apply H.
  apply Re0_rep; assumption.
Qed.
Print Assumptions C122_one_pass.

(** The yawed rotor of SymmetryWitness.v with one and with two passes. *)
Example C122_example : forall npi, 3 < npi < PI -> Forall ignores_Re (g_af y_args) /\ g_iterRe y_args = 1%nat /\
  exists b b' b1 y w, construct y_args = Ok b /\ construct (with_iter 2 y_args) = Ok b' /\ b_iterRe b' = 2%nat /\
    evaluate npi midpoint b [(1, 60 / PI, 2)] = Ok (b1, [Some y], w) /\ 0 < t_T (y_tot y) /\
    returned (evaluate npi midpoint b' [(1, 60 / PI, 2)]) = Ok ([Some y], w).
Proof.
  intros npi Hn. assert (F : Forall ignores_Re (g_af y_args)) by (repeat constructor; intros al Re Re'; reflexivity).
  destruct midpoint_contracts as (M1 & _ & M2). destruct (y_evaluate npi midpoint 2 Hn M1 M2) as (b1 & y & w & E & HT).
  split; [exact F|]. split; [reflexivity|].
  pose proof (C122_rotor npi midpoint 2 y_args F ltac:(cbn; lia) ltac:(lia)) as C. rewrite construct_iter in *. rewrite y_construct in *.
  cbn [corresponds] in C. specialize (C [(1, 60 / PI, 2)]). rewrite E in C.
  exists y_blade, (iter_blade 2 y_blade), b1, y, w. split; [reflexivity|]. split; [reflexivity|]. split; [reflexivity|].
  split; [exact E|]. split; [exact HT|]. symmetry. exact C.
Qed.

(** ** C123: the reported coefficients and the reported Reynolds number *)

(** "The coefficients reported for a turning station are those of its airfoil at the reported angle of attack and Reynolds
    number." *)
Definition coefficients_match (npi : R) (bq : rootfinder fl) : Prop :=
  forall rt sc l chord Vx Vy rho mu T, rt_iterRe rt = 1%nat ->
    s_chord sc = Fin chord -> s_Vx sc = Fin Vx -> s_Vy sc = Fin Vy -> rt_rho rt = Fin rho -> rt_mu rt = Fin mu ->
    0 < chord -> Vx <> 0 -> Vy <> 0 -> 0 < rho -> 0 < mu -> solve_station npi bq rt true sc = Ok l -> rep (o_Tp l) T -> T <> 0 ->
    exists alpha, rad2deg alpha = o_alpha l /\ s_af sc alpha (o_Re l) = (o_cl l, o_cd l).

(** What holds: they are looked up at the Reynolds number of the wind without induction, while the reported one is that of
    the reported relative speed. *)
Theorem C123_lookup : forall npi bq rt sc l chord Vx Vy rho mu, rt_iterRe rt = 1%nat ->
  s_chord sc = Fin chord -> s_Vx sc = Fin Vx -> s_Vy sc = Fin Vy -> rt_rho rt = Fin rho -> rt_mu rt = Fin mu ->
  Vx <> 0 -> Vy <> 0 -> mu <> 0 -> solve_station npi bq rt true sc = Ok l ->
  (exists alpha Re, rep Re (reynolds rho mu chord Vx Vy) /\ s_af sc alpha Re = (o_cl l, o_cd l) /\
     (o_alpha l = rad2deg alpha \/ (o_Np l = Fin 0 /\ o_alpha l = Fin 0))) /\
  (forall W, rep (o_W l) W -> rep (o_Re l) (rho * W * chord / mu)).
Proof.
  intros npi bq rt sc l chord Vx Vy rho mu H1 Ec Ex Ey Er Em Nx Ny Nm S.
  destruct (station_report npi bq rt sc l H1) as (phi & a & ap & alpha & _ & Q); [rewrite Ex; cbn; apply reqb_false; exact Nx|rewrite Ey; cbn; apply reqb_false; exact Ny|exact S|].
  cbv zeta in Q. destruct Q as (Q1 & Q2 & Q3 & Q4 & Q5). split.
  - exists alpha. eexists. split; [|split; [exact Q2|tauto]]. eapply Re0_rep; eassumption.
  - intros W QW. rewrite Q4. rewrite Q3 in QW. unfold relativeWind in QW |- *. cbv zeta in QW |- *. cbn [fst snd] in QW |- *.
    rewrite Er, Em, Ec. cbn [nmul ndiv fl_arith] in QW |- *. apply rep_div; [|apply rep_Fin|exact Nm]. apply rep_mul; [|apply rep_Fin]. apply rep_mul; [apply rep_Fin|exact QW].
Qed.
Print Assumptions C123_lookup.

(** A parked station is looked up at the Reynolds number that is reported. *)
Theorem C123_parked : forall npi bq rt sc l, solve_station npi bq rt false sc = Ok l ->
  neq (s_Vx sc) (Fin 0) = false -> neq (s_Vy sc) (Fin 0) = false ->
  exists alpha, rad2deg alpha = o_alpha l /\ s_af sc alpha (o_Re l) = (o_cl l, o_cd l).
Proof.
  intros npi bq rt sc l S Hx Hy. unfold solve_station in S. cbn [bind ofR fl_arith] in S. apply bind_ok in S. destruct S as (l0 & SL & SN).
  apply nan_guard_cases in SN. destruct SN as [[_ ->]|[_ [F _]]]; [|discriminate F].
  unfold loads in SL. cbn [ofR fl_arith] in SL. change (@neq fl fl_arith) with feq in *. rewrite Hx, Hy in SL. cbn [negb andb] in SL.
  destruct (relativeWind (Fin (npi / 2)) (Fin 0) (Fin 0) (s_Vx sc) (s_Vy sc) (rt_pitch rt) (s_chord sc) (s_theta sc) (rt_rho rt) (rt_mu rt)) as [[al W] Re] eqn:E0.
  destruct (s_af sc al Re) as [cl cd] eqn:Ea. cbn [bind] in SL. rewrite E0 in SL. apply ok_inj in SL. subst l0. exists al. cbn [o_alpha o_Re o_cl o_cd]. split; [reflexivity|exact Ea].
Qed.
Print Assumptions C123_parked.

(** The rotor of the refutation: lift proportional to the Reynolds number, inflow angle 45 degrees, wind 1 and rotational speed
    5/6 at the station; the lookups are at a speed of sqrt(61)/6, the reported speed is sqrt(50)/6. *)
Definition re_chord : R := 4 * PI * q2 * (1 / 5) / 2.
Definition re_ref : R := reynolds 1 1 re_chord 1 (5 / 6).
Definition re_af : airfoil fl := fun _ Re => (fmul (Fin (2 / re_ref)) Re, Fin 0).
Definition re_rotor : rotor fl := mkRotor (Fin (1 / 2)) (Fin 3) 2 (Fin 1) (Fin 1) plain 1 (Fin 0).
Definition re_sect : sect fl := mkSect (Fin 1) (Fin re_chord) (Fin 0) re_af (Fin 1) (Fin (5 / 6)).

Lemma re_speed : 0 < re_chord /\ 0 < re_ref /\ re_ref * re_ref = 61 / 36 * (re_chord * re_chord).
Proof.
  pose proof PI_RGT_0. destruct q2_sqr as (_ & Q). assert (Hc : 0 < re_chord) by (unfold re_chord; nra).
  assert (Hs : 0 < sqrt (1 * 1 + 5 / 6 * (5 / 6))) by (apply sqrt_lt_R0; lra).
  assert (E : sqrt (1 * 1 + 5 / 6 * (5 / 6)) * sqrt (1 * 1 + 5 / 6 * (5 / 6)) = 61 / 36) by (rewrite sqrt_sqrt by lra; field).
  unfold re_ref, reynolds. set (w := sqrt _) in *. split; [exact Hc|]. split; [nra|].
  replace (1 * w * re_chord / 1 * (1 * w * re_chord / 1)) with (w * w * (re_chord * re_chord)) by field. rewrite E. reflexivity.
Qed.

(** What that station reports. *)
Lemma re_station npi : 3 < npi < PI -> exists l, solve_station npi quarter re_rotor true re_sect = Ok l /\
  rep (o_Tp l) (25 / 18 * (q2 * re_chord)) /\ o_cl l = Fin 2 /\ o_cd l = Fin 0 /\ rep (o_Re l) (sqrt (50 / 36) * re_chord).
Proof.
  intros Hn. pose proof PI_RGT_0 as HP. destruct q2_sqr as (_ & Q2). destruct re_speed as (Hc & Hr & Er).
  set (sc0 := mkSect (Fin 1) (Fin re_chord) (Fin 0) (lift_af 2) (Fin 1) (Fin (5 / 6))).
  assert (HA : solidity 2 re_chord 1 * 2 / 4 = q2 * (1 / (5 / 6) - 1)).
  { unfold solidity, re_chord. cbn [INR]. field. lra. }
  assert (Same : solve_station npi quarter re_rotor true re_sect = solve_station npi quarter re_rotor true sc0).
  { change re_sect with (with_af re_af sc0). apply (C122_one_pass npi quarter re_rotor true sc0 re_af re_chord 1 (5 / 6) 1 1); try reflexivity; [lra|].
    intros al Re QR. fold re_ref in QR. unfold re_af, sc0, lift_af. cbn [s_af]. f_equal.
    assert (QF : rep (fmul (Fin (2 / re_ref)) Re) 2).
    { replace 2 with (2 / re_ref * re_ref) at 2 by (field; lra). apply rep_mul; [apply rep_Fin|exact QR]. }
    destruct (rep_inv _ _ QF) as [->|[-> Z]]; [reflexivity|lra]. }
  assert (Hh : 0 < 1 / 2 < 1) by lra. assert (Ht : 1 < 3) by lra. assert (Hl : 0 < 5 / 6) by lra.
  destruct (front_residual 2 1 re_chord 2 (1 / 2) 3 1 1 0 0 (5 / 6)) as (_ & K); try assumption; try lia; try lra.
  assert (K' : solidity 2 re_chord 1 * 2 / 4 * cos (PI / 4) / sin (PI / 4) ^ 2 = 1 / 5) by (rewrite K; field).
  destruct (lift_loads 2 1 re_chord 2 (1 / 2) 3 1 1 0 0 (5 / 6) Hh Hl (PI / 4)) as (l & N & E & _ & QT & QAl & Qa & Qap); try rewrite K'; try lra.
  { rewrite Rabs_right; lra. }
  rewrite K' in QT, Qa.
  assert (S0 : solve_station npi quarter re_rotor true sc0 = Ok l).
  { unfold solve_station. change (rt_iterRe re_rotor) with 1%nat. cbv iota. unfold re_rotor, sc0.
    rewrite (front_solve 2 1 re_chord 2 (1 / 2) 3 1 1 0 0 (5 / 6)) by first [assumption | lia | lra]. exact E. }
  rewrite sin_PI4 in QT. fold q2 in QT.
  replace (2 * q2 * (1 / 2 * ((1 / (1 + 1 / 5)) ^ 2 + (5 / 6) ^ 2)) * re_chord) with (25 / 18 * (q2 * re_chord)) in QT by field.
  destruct (station_report npi quarter re_rotor sc0 l eq_refl) as (phi & a & ap & al & _ & Rp);
    [cbn; apply reqb_false; lra|cbn; apply reqb_false; lra|exact S0|].
  cbv beta zeta in Rp. destruct Rp as (_ & R2 & R3 & R4 & R5). cbn [s_af sc0] in R2. unfold lift_af in R2. apply pair_equal_spec in R2. destruct R2 as (Rcl & Rcd).
  destruct R5 as [(Ra & Rap & _)|(_ & Rz)].
  2:{ rewrite Rz in QAl. apply (rep_fun _ _ _ (rep_Fin 0)) in QAl. unfold degrees in QAl. assert (0 < 180 / PI) by (apply Rdiv_lt_0_compat; lra). nra. }
  rewrite Ra in Qa. rewrite Rap in Qap.
  assert (QRe : rep (o_Re l) (1 * sqrt (1 * (1 - 1 / 6) * (1 * (1 - 1 / 6)) + 5 / 6 * (1 + 0) * (5 / 6 * (1 + 0))) * re_chord / 1)).
  { rewrite R4. unfold relativeWind. cbn [snd s_Vx s_Vy s_chord sc0 rt_rho rt_mu re_rotor]. cbn [nmul ndiv nsub nadd nabs nsqrt nlt ofR fl_arith].
    replace (1 / 5 / (1 + 1 / 5)) with (1 / 6) in Qa by field.
    rewrite (rep_lt (Fin 10) _ 10 _ (rep_Fin 10) (rep_abs _ _ Qa)), (rep_lt (Fin 10) _ 10 _ (rep_Fin 10) (rep_abs _ _ Qap)).
    replace (rltb 10 (Rabs (1 / 6))) with false by (symmetry; apply rltb_false; rewrite Rabs_right; lra).
    replace (rltb 10 (Rabs 0)) with false by (symmetry; apply rltb_false; rewrite Rabs_R0; lra).
    apply rep_div; [|apply rep_Fin|lra]. apply rep_mul; [|apply rep_Fin]. apply rep_mul; [apply rep_Fin|]. apply rep_sqrt; [reps|lra]. }
  replace (1 * (1 - 1 / 6) * (1 * (1 - 1 / 6)) + 5 / 6 * (1 + 0) * (5 / 6 * (1 + 0))) with (50 / 36) in QRe by field.
  replace (1 * sqrt (50 / 36) * re_chord / 1) with (sqrt (50 / 36) * re_chord) in QRe by field.
  exists l. refine (conj (eq_trans Same S0) (conj QT (conj (eq_sym Rcl) (conj (eq_sym Rcd) QRe)))).
Qed.

(** Refuted: with iterRe = 1 and an airfoil that depends on the Reynolds number the reported coefficients are not those of the
    airfoil at the reported Reynolds number. *)
Theorem C123_coefficients_refuted : forall npi, 3 < npi < PI -> ~ coefficients_match npi quarter.
Proof.
  intros npi Hn CM. destruct q2_sqr as (_ & Q2). destruct re_speed as (Hc & Hr & Er). destruct (re_station npi Hn) as (l & S0 & QT & Rcl & _ & QRe).
  destruct (CM re_rotor re_sect l re_chord 1 (5 / 6) 1 1 _ eq_refl eq_refl eq_refl eq_refl eq_refl eq_refl Hc ltac:(lra) ltac:(lra) ltac:(lra) ltac:(lra)
    S0 QT) as (alpha & _ & Af); [apply Rgt_not_eq; nra|].
  cbn [s_af re_sect] in Af. unfold re_af in Af. apply pair_equal_spec in Af. destruct Af as (Af & _). rewrite Rcl in Af.
  assert (QF := rep_mul _ _ _ _ (rep_Fin (2 / re_ref)) QRe). rewrite Af in QF. apply (rep_fun _ _ _ (rep_Fin 2)) in QF.
  assert (W2 : sqrt (50 / 36) * sqrt (50 / 36) = 50 / 36) by (apply sqrt_sqrt; lra). set (w := sqrt (50 / 36)) in *.
  assert (F : w * re_chord = re_ref) by (transitivity (re_ref * (2 / re_ref * (w * re_chord)) / 2); [field; lra|rewrite <- QF; field]).
  rewrite <- F in Er. replace (w * re_chord * (w * re_chord)) with (w * w * (re_chord * re_chord)) in Er by ring. rewrite W2 in Er. nra.
Qed.
Print Assumptions C123_coefficients_refuted.

(** The premises of the lookup theorem at this station; the same station standing still. *)
Example C123_example : forall npi, 3 < npi < PI -> exists l, solve_station npi quarter re_rotor true re_sect = Ok l /\
  rt_iterRe re_rotor = 1%nat /\ (exists alpha Re, rep Re re_ref /\ s_af re_sect alpha Re = (o_cl l, o_cd l)) /\ o_cl l = Fin 2.
Proof.
  intros npi Hn. destruct (re_station npi Hn) as (l & S0 & _ & Rcl & _ & _). exists l. split; [exact S0|]. split; [reflexivity|]. split; [|exact Rcl].
  destruct (C123_lookup npi quarter re_rotor re_sect l re_chord 1 (5 / 6) 1 1 eq_refl eq_refl eq_refl eq_refl eq_refl eq_refl ltac:(lra) ltac:(lra) ltac:(lra) S0)
    as ((alpha & Re & QR & E & _) & _). exists alpha, Re. split; assumption.
Qed.

Example C123_parked_example : forall npi bq, exists l, solve_station npi bq re_rotor false re_sect = Ok l /\ rep (o_cl l) 2 /\
  exists alpha, rad2deg alpha = o_alpha l /\ s_af re_sect alpha (o_Re l) = (o_cl l, o_cd l).
Proof.
  intros npi bq. destruct re_speed as (Hc & Hr & _).
  destruct (parked_station npi bq re_rotor re_sect 1 1 re_chord 0 0 1 (5 / 6) (fun _ Re => 2 / re_ref * Re) (fun _ _ => 0)) as (l & E & P); try apply rep_Fin; try lra.
  { intros al x Re y Qa Qr. cbn [s_af re_sect re_af fst snd]. split; [apply rep_mul; [apply rep_Fin|exact Qr]|apply rep_Fin]. }
  exists l. split; [exact E|]. destruct P as (_ & _ & _ & _ & _ & _ & P & _). split.
  - assert (W : 1 * sqrt (1 ^ 2 + (5 / 6) ^ 2) * re_chord / 1 = re_ref) by (unfold re_ref, reynolds; do 3 f_equal; f_equal; ring).
    cbv beta in P. rewrite W in P. replace (2 / re_ref * re_ref) with 2 in P by (field; lra). exact P.
  - apply (C123_parked npi bq re_rotor re_sect l E); cbn; apply reqb_false; lra.
Qed.
