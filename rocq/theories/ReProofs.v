(** Lemmas about the Reynolds number of the airfoil lookups (C122, C123). *)
From Coq Require Import Reals Bool Arith List Lra Lia FunctionalExtensionality.
From Verif Require Import Prelim Num Bem Blade FlProofs StationProofs StationLoads SimilaritySpec SimilarityProofs SymmetryProofs HubSpec HubProofs ReSpec.
Import ListNotations.
Open Scope R_scope.

(** ** Airfoils that ignore the Reynolds number *)
Lemma pass_free (rt : rotor fl) sc phi a ap a' ap' : ignores_Re (s_af sc) -> bem_pass rt sc phi a ap = bem_pass rt sc phi a' ap'.
Proof.
  intros H. unfold bem_pass, relativeWind. cbv zeta.
  match goal with |- (let '(_, _) := s_af sc ?al ?R1 in _) = (let '(_, _) := s_af sc _ ?R2 in _) => rewrite (H al R1 R2) end. reflexivity.
Qed.
Lemma loop_free (rt : rotor fl) sc phi m : ignores_Re (s_af sc) -> bem_loop rt sc phi m = bem_loop rt sc phi 0.
Proof.
  intros H. destruct m as [|m]; [reflexivity|]. cbn [bem_loop]. destruct (bem_loop rt sc phi m) as [[[[fz a] ap] cl] cd]. apply pass_free. exact H.
Qed.

Definition iter_rotor (n : nat) (rt : rotor fl) : rotor fl := mkRotor (rt_Rhub rt) (rt_Rtip rt) (rt_B rt) (rt_rho rt) (rt_mu rt) (rt_opts rt) n (rt_pitch rt).
Lemma loop_iter n rt sc phi m : bem_loop (iter_rotor n rt) sc phi m = bem_loop rt sc phi m.
Proof. induction m as [|m IH]; [reflexivity|]. cbn [bem_loop]. rewrite IH. reflexivity. Qed.

Lemma station_iter npi bq rt rot sc n : ignores_Re (s_af sc) -> (1 <= rt_iterRe rt)%nat -> (1 <= n)%nat ->
  solve_station npi bq (iter_rotor n rt) rot sc = solve_station npi bq rt rot sc.
Proof.
  intros H H1 H2. destruct n as [|n]; [lia|]. unfold solve_station. cbn [iter_rotor rt_iterRe]. destruct (rt_iterRe rt) as [|m] eqn:Em; [lia|].
  assert (E : errf (iter_rotor (S n) rt) sc n = errf rt sc m).
  { apply functional_extensionality. intros phi. unfold errf. rewrite loop_iter, (loop_free rt sc phi n H), (loop_free rt sc phi m H). reflexivity. }
  fold (iter_rotor (S n) rt). rewrite E.
  assert (L : forall phi, loads (iter_rotor (S n) rt) phi rot sc = loads rt phi rot sc).
  { intros phi. unfold loads, runBEM. cbn [iter_rotor rt_iterRe rt_pitch rt_rho rt_mu]. fold (iter_rotor (S n) rt). rewrite Em.
    rewrite loop_iter, (loop_free rt sc phi n H), (loop_free rt sc phi m H). reflexivity. }
  destruct (if rot then _ else _) as [phi|e]; [|reflexivity]. cbn [bind]. rewrite L. reflexivity.
Qed.

Definition iter_blade (n : nat) (b : blade) : blade :=
  mkBlade (b_r b) (b_chord b) (b_theta b) (b_af b) (b_Rhub b) (b_Rtip b) (b_B b) (b_rho b) (b_mu b)
    (b_precone b) (b_tilt b) (b_yaw b) (b_shearExp b) (b_hubHt b) (b_opts b) n
    (b_precurve b) (b_precurveTip b) (b_presweep b) (b_presweepTip b) (b_rotorR b) (b_nSector b)
    (b_inverse b) (b_cl b) (b_cd b) (b_alpha b) (b_pitch b).
Lemma construct_iter n g : construct (with_iter n g) = match construct g with Ok b => Ok (iter_blade n b) | Raise e => Raise e end.
Proof.
  unfold construct, with_iter.
  cbn [g_r g_chord g_theta g_af g_Rhub g_Rtip g_B g_rho g_mu g_precone g_tilt g_yaw g_shearExp g_hubHt g_nSector g_precurve g_precurveTip g_presweep g_presweepTip g_opts g_iterRe].
  destruct (Nat.ltb (length (g_r g)) 2); [reflexivity|]. cbv zeta. destruct (curve_error _ _ _ _ _); reflexivity.
Qed.
Lemma construct_attr g b : construct g = Ok b -> b_af b = g_af g /\ b_iterRe b = g_iterRe g /\ b_inverse b = false.
Proof.
  unfold construct. destruct (Nat.ltb (length (g_r g)) 2); [discriminate|]. cbv zeta. destruct (curve_error _ _ _ _ _); [discriminate|].
  intros E. apply ok_inj in E. subst b. repeat split; reflexivity.
Qed.

Lemma dal_iter npi bq n b U Om p az : b_inverse b = false -> Forall ignores_Re (b_af b) -> (1 <= b_iterRe b)%nat -> (1 <= n)%nat ->
  section_loads npi bq b U Om p az = section_loads npi bq (iter_blade n b) U Om p az.
Proof.
  intros Hi Haf H1 H2. unfold section_loads, distributedAeroLoads. change (shapes_ok (iter_blade n b)) with (shapes_ok b). destruct (negb (shapes_ok b)); [reflexivity|].
  cbv zeta. change (length (b_r (iter_blade n b))) with (length (b_r b)). change (wind (iter_blade n b)) with (wind b).
  assert (S : station_i npi bq (iter_blade n b) (radians p) Om (wind b U Om (radians az)) = station_i npi bq b (radians p) Om (wind b U Om (radians az))).
  { apply functional_extensionality. intros i. unfold station_i. cbv zeta. cbn [iter_blade b_r b_chord b_af b_inverse b_theta]. rewrite Hi.
    destruct (pyget (b_r b) i) as [r|]; [|reflexivity]. cbn [bind]. destruct (pyget (b_chord b) i) as [c|]; [|reflexivity]. cbn [bind].
    destruct (pyget (b_af b) i) as [af|] eqn:Ea; [|reflexivity]. cbn [bind]. destruct (pyget (b_theta b) i) as [th|]; [|reflexivity]. cbn [bind].
    change (rotor_of (iter_blade n b) (radians p)) with (iter_rotor n (rotor_of b (radians p))). fold (iter_blade n b).
    rewrite station_iter; [reflexivity| |exact H1|exact H2]. cbn [s_af]. rewrite Forall_forall in Haf. apply Haf.
    unfold pyget in Ea. destruct (nth_error (b_af b) i) eqn:En; [|discriminate]. apply ok_inj in Ea. subst. eapply nth_error_In. exact En. }
  rewrite S. destruct (mapM _ _) as [out|]; [|reflexivity]. cbn [bind iter_blade b_inverse]. rewrite Hi. reflexivity.
Qed.

(** ** One pass *)
Section OnePass.
Variables (rt : rotor fl) (sc : sect fl).
Hypothesis H1 : rt_iterRe rt = 1%nat.
Let Re0 (phi : fl) : fl := snd (relativeWind phi (Fin 0) (Fin 0) (s_Vx sc) (s_Vy sc) (rt_pitch rt) (s_chord sc) (s_theta sc) (rt_rho rt) (rt_mu rt)).

Lemma Re0_any phi phi' : Re0 phi = Re0 phi'.
Proof.
  unfold Re0, relativeWind. cbv zeta. cbn [snd nlt nabs ofR fl_arith].
  replace (flt (Fin 10) (fabs (Fin 0))) with false; [reflexivity|]. cbn. rewrite Rabs_R0. symmetry. apply rltb_false. lra.
Qed.
Lemma Re0_rep chord Vx Vy rho mu phi : s_chord sc = Fin chord -> s_Vx sc = Fin Vx -> s_Vy sc = Fin Vy -> rt_rho rt = Fin rho -> rt_mu rt = Fin mu -> mu <> 0 ->
  rep (Re0 phi) (reynolds rho mu chord Vx Vy).
Proof.
  intros Ec Ex Ey Er Em Hm. unfold Re0, relativeWind. cbv zeta. cbn [snd nlt nabs ofR fl_arith nmul nadd nsub ndiv nsqrt].
  replace (flt (Fin 10) (fabs (Fin 0))) with false by (cbn; rewrite Rabs_R0; symmetry; apply rltb_false; lra).
  rewrite Ec, Ex, Ey, Er, Em. unfold reynolds.
  replace (Vx * Vx + Vy * Vy) with (Vx * (1 - 0) * (Vx * (1 - 0)) + Vy * (1 + 0) * (Vy * (1 + 0))) by ring.
  apply rep_div; [|apply rep_Fin|exact Hm]. apply rep_mul; [|apply rep_Fin]. apply rep_mul; [apply rep_Fin|]. apply rep_sqrt; [reps|nra].
Qed.

Lemma pass_af af phi : (forall al, af al (Re0 (Fin 0)) = s_af sc al (Re0 (Fin 0))) ->
  bem_pass rt (with_af af sc) phi (Fin 0) (Fin 0) = bem_pass rt sc phi (Fin 0) (Fin 0).
Proof.
  intros H. unfold bem_pass. cbn [with_af s_r s_chord s_theta s_af s_Vx s_Vy].
  pose proof (Re0_any phi (Fin 0)) as E. unfold Re0 in E at 1.
  destruct (relativeWind phi (Fin 0) (Fin 0) (s_Vx sc) (s_Vy sc) (rt_pitch rt) (s_chord sc) (s_theta sc) (rt_rho rt) (rt_mu rt)) as [[al W] Re]. cbn [snd] in E. subst Re.
  rewrite H. reflexivity.
Qed.
Lemma station_af npi bq rot af : (forall al, af al (Re0 (Fin 0)) = s_af sc al (Re0 (Fin 0))) ->
  solve_station npi bq rt rot (with_af af sc) = solve_station npi bq rt rot sc.
Proof.
  intros H. unfold solve_station. rewrite H1.
  assert (E : errf rt (with_af af sc) 0 = errf rt sc 0).
  { apply functional_extensionality. intros phi. unfold errf. cbn [bem_loop ofR fl_arith]. rewrite (pass_af af phi H). reflexivity. }
  rewrite E. destruct (if rot then _ else _) as [phi|]; [|reflexivity]. cbn [bind].
  assert (L : loads rt phi rot (with_af af sc) = loads rt phi rot sc); [|rewrite L; reflexivity].
  unfold loads, runBEM. rewrite H1. cbn [bem_loop ofR fl_arith]. rewrite (pass_af af phi H). cbn [with_af s_r s_chord s_theta s_af s_Vx s_Vy].
  destruct (andb _ _); [|reflexivity]. destruct rot; [reflexivity|].
  pose proof (Re0_any phi (Fin 0)) as E'. unfold Re0 in E' at 1.
  destruct (relativeWind phi (Fin 0) (Fin 0) (s_Vx sc) (s_Vy sc) (rt_pitch rt) (s_chord sc) (s_theta sc) (rt_rho rt) (rt_mu rt)) as [[al W] Re]. cbn [snd] in E'. subst Re.
  rewrite H. reflexivity.
Qed.
End OnePass.

(** What a station reports, one pass. *)
Lemma station_report npi bq rt (sc : sect fl) l : rt_iterRe rt = 1%nat -> neq (s_Vx sc) (Fin 0) = false -> neq (s_Vy sc) (Fin 0) = false ->
  solve_station npi bq rt true sc = Ok l ->
  exists phi a ap alpha, solve npi bq (errf rt sc 0) = Ok phi /\
    (let rel u v := relativeWind phi u v (s_Vx sc) (s_Vy sc) (rt_pitch rt) (s_chord sc) (s_theta sc) (rt_rho rt) (rt_mu rt) in
     alpha = fst (fst (rel (Fin 0) (Fin 0))) /\ s_af sc alpha (snd (rel (Fin 0) (Fin 0))) = (o_cl l, o_cd l) /\
     o_W l = snd (fst (rel a ap)) /\ o_Re l = snd (rel a ap) /\
     ((o_a l = a /\ o_ap l = ap /\ o_alpha l = rad2deg alpha) \/ (o_Np l = Fin 0 /\ o_alpha l = Fin 0))).
Proof.
  intros H1 Hx Hy S. unfold solve_station in S. rewrite H1 in S. apply bind_ok in S. destruct S as (phi & E & S). apply bind_ok in S. destruct S as (l0 & SL & SN).
  exists phi. unfold loads in SL. cbn [ofR fl_arith] in SL. change (@neq fl fl_arith) with feq in *. rewrite Hx, Hy in SL. cbn [negb andb] in SL. unfold runBEM in SL. rewrite H1 in SL.
  cbn [bem_loop bind ofR fl_arith] in SL. unfold bem_pass in SL.
  destruct (relativeWind phi (Fin 0) (Fin 0) (s_Vx sc) (s_Vy sc) (rt_pitch rt) (s_chord sc) (s_theta sc) (rt_rho rt) (rt_mu rt)) as [[al W] Re] eqn:E0.
  destruct (s_af sc al Re) as [cl cd] eqn:Ea. destruct (inductionFactors _ _ _ _ _ _ _ _ _ _ _) as [[fz a] ap]. cbn [bind] in SL.
  assert (AL : fst (fst (relativeWind phi a ap (s_Vx sc) (s_Vy sc) (rt_pitch rt) (s_chord sc) (s_theta sc) (rt_rho rt) (rt_mu rt))) = al).
  { apply (f_equal (fun x => fst (fst x))) in E0. cbn [fst snd] in E0. rewrite <- E0. reflexivity. }
  exists a, ap, al. split; [exact E|]. cbv beta zeta. rewrite E0. cbn [fst snd].
  destruct (relativeWind phi a ap (s_Vx sc) (s_Vy sc) (rt_pitch rt) (s_chord sc) (s_theta sc) (rt_rho rt) (rt_mu rt)) as [[al' W'] Re']. cbn [fst snd] in AL |- *. subst al'.
  apply ok_inj in SL. subst l0. apply nan_guard_cases in SN. destruct SN as [[_ ->]|[_ [_ ->]]]; cbn [o_cl o_cd o_W o_Re o_a o_ap o_alpha o_Np];
    refine (conj eq_refl (conj _ (conj eq_refl (conj eq_refl _)))); auto.
Qed.
