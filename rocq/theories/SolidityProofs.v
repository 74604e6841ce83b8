(** Rotors of equal solidity, without loss corrections. *)
From Coq Require Import Reals Bool Arith List Lra Lia FunctionalExtensionality.
From Verif Require Import Prelim Num Bem Interp Blade BladeSpec StationProofs SimilaritySpec SimilarityProofs SoliditySpec.
Import ListNotations.
Open Scope R_scope.

Lemma sc_inv k j x : j * k = 1 -> scaled j (scaled k x) = x.
Proof. intros H. destruct x; cbn; try reflexivity. f_equal. rewrite <- Rmult_assoc, H. ring. Qed.

(** ** One station *)
Section Station.
Variables (k : R) (n : nat) (rt : rotor fl).
Hypothesis Hk : 0 < k.
Hypothesis HB : INR (rt_B rt) = k * INR n.
Hypothesis Ht : tipLoss (rt_opts rt) = false.
Hypothesis Hh : hubLoss (rt_opts rt) = false.
Definition re_rotor : rotor fl := mkRotor (rt_Rhub rt) (rt_Rtip rt) n (rt_rho rt) (rt_mu rt) (rt_opts rt) (rt_iterRe rt) (rt_pitch rt).
Variables (r chord theta Vx Vy : fl) (af : airfoil fl).
Definition ss := mkSect r chord theta af Vx Vy.
Definition ss' := mkSect r (scaled k chord) theta af Vx Vy.
Hypothesis Haf : ignores_Re af.

Lemma sol_ind phi cl cd : inductionFactors (rt_opts rt) n r (scaled k chord) (rt_Rhub rt) (rt_Rtip rt) phi cl cd Vx Vy =
  inductionFactors (rt_opts rt) (rt_B rt) r chord (rt_Rhub rt) (rt_Rtip rt) phi cl cd Vx Vy.
Proof.
  assert (E : bem_locals (rt_opts rt) n r (scaled k chord) (rt_Rhub rt) (rt_Rtip rt) phi cl cd =
              bem_locals (rt_opts rt) (rt_B rt) r chord (rt_Rhub rt) (rt_Rtip rt) phi cl cd).
  { unfold bem_locals. rewrite Ht, Hh, HB. cbn [nadd nsub nmul ndiv nopp nabs nsqrt nsin ncos nacos nexp nle nlt neq ofR fl_arith].
    assert (S0 : fdiv (fmul (fdiv (fdiv (Fin (INR n)) (Fin 2)) (Fin PI)) (scaled k chord)) r = fdiv (fmul (fdiv (fdiv (Fin (k * INR n)) (Fin 2)) (Fin PI)) chord) r).
    { change (Fin (k * INR n)) with (scaled k (Fin (INR n))). rewrite (sc_mul_r k), !(sc_div_l k), (sc_mul_l k), (sc_div_l k) by exact Hk. reflexivity. }
    rewrite S0. reflexivity. }
  unfold inductionFactors. rewrite E. reflexivity.
Qed.

Lemma sol_wind phi a ap al W Re : relativeWind phi a ap Vx Vy (rt_pitch rt) chord theta (rt_rho rt) (rt_mu rt) = (al, W, Re) ->
  relativeWind phi a ap Vx Vy (rt_pitch rt) (scaled k chord) theta (rt_rho rt) (rt_mu rt) = (al, W, scaled k Re).
Proof.
  unfold relativeWind. cbn [nadd nsub nmul ndiv nopp nabs nsqrt nsin ncos nacos nexp nle nlt neq ofR fl_arith]. intros E.
  apply pair_equal_spec in E. destruct E as [E <-]. apply pair_equal_spec in E. destruct E as [<- <-].
  f_equal. rewrite sc_mul_r by exact Hk. apply sc_div_l. exact Hk.
Qed.

Lemma sol_pass phi a ap : bem_pass re_rotor ss' phi a ap = bem_pass rt ss phi a ap.
Proof.
  unfold bem_pass, re_rotor. cbn [rt_Rhub rt_Rtip rt_B rt_rho rt_mu rt_opts rt_iterRe rt_pitch ss ss' s_r s_chord s_theta s_af s_Vx s_Vy].
  destruct (relativeWind phi a ap Vx Vy (rt_pitch rt) chord theta (rt_rho rt) (rt_mu rt)) as [[al W] Re] eqn:E. rewrite (sol_wind _ _ _ _ _ _ E).
  rewrite (Haf al (scaled k Re) Re). destruct (af al Re) as [cl cd]. rewrite sol_ind. reflexivity.
Qed.
Lemma sol_loop phi m : bem_loop re_rotor ss' phi m = bem_loop rt ss phi m.
Proof.
  induction m as [|m IH]; cbn [bem_loop]; [apply sol_pass|]. rewrite IH. destruct (bem_loop rt ss phi m) as [[[[fz a] ap] cl] cd]. apply sol_pass.
Qed.
Lemma sol_run phi : runBEM re_rotor ss' phi = runBEM rt ss phi.
Proof. unfold runBEM. change (rt_iterRe re_rotor) with (rt_iterRe rt). destruct (rt_iterRe rt); [reflexivity|]. rewrite sol_loop. reflexivity. Qed.
Lemma sol_errf m : errf re_rotor ss' m = errf rt ss m.
Proof. apply functional_extensionality. intros phi. unfold errf. rewrite sol_loop. reflexivity. Qed.

Lemma sol_zero : same_flow k zero_load zero_load.
Proof. unfold same_flow, zero_load. cbn. rewrite !Rmult_0_r. repeat split. Qed.

Lemma sol_loads phi rot : corresponds (same_flow k) (loads rt phi rot ss) (loads re_rotor phi rot ss').
Proof.
  unfold loads. change (rt_pitch re_rotor) with (rt_pitch rt). change (rt_rho re_rotor) with (rt_rho rt). change (rt_mu re_rotor) with (rt_mu rt).
  cbn [ss ss' s_r s_chord s_theta s_af s_Vx s_Vy]. fold ss. fold ss'.
  destruct (andb _ _); [|apply sol_zero].
  assert (K : forall a ap cl cd,
    corresponds (same_flow k)
     (let '(alpha, W, Re) := relativeWind phi a ap Vx Vy (rt_pitch rt) chord theta (rt_rho rt) (rt_mu rt) in
      let cn := nadd (nmul cl (ncos phi)) (nmul cd (nsin phi)) in let ct := nsub (nmul cl (nsin phi)) (nmul cd (ncos phi)) in
      let q := nmul (nmul (ofR (1 / 2)) (rt_rho rt)) (nmul W W) in
      Ok (mkLoad a ap (nmul (nmul cn q) chord) (nmul (nmul ct q) chord) (rad2deg alpha) cl cd cn ct q W Re))
     (let '(alpha, W, Re) := relativeWind phi a ap Vx Vy (rt_pitch rt) (scaled k chord) theta (rt_rho rt) (rt_mu rt) in
      let cn := nadd (nmul cl (ncos phi)) (nmul cd (nsin phi)) in let ct := nsub (nmul cl (nsin phi)) (nmul cd (ncos phi)) in
      let q := nmul (nmul (ofR (1 / 2)) (rt_rho rt)) (nmul W W) in
      Ok (mkLoad a ap (nmul (nmul cn q) (scaled k chord)) (nmul (nmul ct q) (scaled k chord)) (rad2deg alpha) cl cd cn ct q W Re))).
  { intros a ap cl cd. destruct (relativeWind phi a ap Vx Vy _ _ _ _ _) as [[al W] Re] eqn:E. rewrite (sol_wind _ _ _ _ _ _ E).
    cbv zeta. cbn [corresponds]. unfold same_flow. cbn [o_a o_ap o_alpha o_cl o_cd o_cn o_ct o_W o_q o_Np o_Tp o_Re].
    do 9 (split; [reflexivity|]). cbn [nmul fl_arith ofR]. rewrite !(sc_mul_r k) by exact Hk. repeat split. }
  destruct rot.
  - rewrite sol_run. destruct (runBEM rt ss phi) as [[[[[fz a] ap] cl] cd]|e]; cbn [bind]; [apply K|reflexivity].
  - destruct (relativeWind phi (ofR 0) (ofR 0) Vx Vy _ _ _ _ _) as [[al W] Re] eqn:E. rewrite (sol_wind _ _ _ _ _ _ E). rewrite (Haf al (scaled k Re) Re).
    destruct (af al Re) as [cl cd]. cbn [bind]. apply K.
Qed.

Lemma sol_guard rot l l' : same_flow k l l' -> corresponds (same_flow k) (nan_guard rot l) (nan_guard rot l').
Proof.
  intros H. unfold nan_guard. pose proof H as (A1 & A2 & A3 & A4 & A5 & A6 & A7 & A8 & A9 & A10 & A11 & A12). rewrite A10, sc_nan.
  destruct (isnan (o_Np l)); [|exact H]. destruct rot; [|reflexivity]. cbn [corresponds]. unfold same_flow.
  cbn [o_a o_ap o_alpha o_cl o_cd o_cn o_ct o_W o_q o_Np o_Tp o_Re ofR fl_arith scaled]. rewrite !Rmult_0_r.
  do 3 (split; [reflexivity|]). do 6 (split; [assumption|]). do 2 (split; [reflexivity|]). exact A12.
Qed.

Lemma sol_station npi bq rot : corresponds (same_flow k) (solve_station npi bq rt rot ss) (solve_station npi bq re_rotor rot ss').
Proof.
  unfold solve_station. change (rt_iterRe re_rotor) with (rt_iterRe rt).
  apply (corr_bind eq).
  - destruct rot; [|reflexivity]. destruct (rt_iterRe rt); [reflexivity|]. rewrite sol_errf. apply corr_refl.
  - intros phi ? <-. apply (corr_bind (same_flow k)); [apply sol_loads|]. intros l l'. apply sol_guard.
Qed.
End Station.

(** ** The object *)
Definition sol_blade (k : R) (n : nat) (b : blade) : blade :=
  mkBlade (b_r b) (map (Rmult k) (b_chord b)) (b_theta b) (b_af b) (b_Rhub b) (b_Rtip b) n (b_rho b) (b_mu b)
    (b_precone b) (b_tilt b) (b_yaw b) (b_shearExp b) (b_hubHt b) (b_opts b) (b_iterRe b)
    (b_precurve b) (b_precurveTip b) (b_presweep b) (b_presweepTip b) (b_rotorR b) (b_nSector b)
    (b_inverse b) (b_cl b) (b_cd b) (b_alpha b) (b_pitch b).

Lemma sol_construct n g : let k := INR (g_B g) / INR n in
  construct (same_solidity n g) = match construct g with Ok b => Ok (sol_blade k n b) | Raise e => Raise e end.
Proof.
  intros k. unfold construct, same_solidity.
  cbn [g_r g_chord g_theta g_af g_Rhub g_Rtip g_B g_rho g_mu g_precone g_tilt g_yaw g_shearExp g_hubHt g_nSector g_precurve g_precurveTip g_presweep g_presweepTip g_opts g_iterRe].
  destruct (Nat.ltb (length (g_r g)) 2); [reflexivity|]. cbv zeta. destruct (curve_error _ _ _ _ _); [reflexivity|].
  unfold sol_blade. cbn [b_r b_chord b_theta b_af b_Rhub b_Rtip b_B b_rho b_mu b_precone b_tilt b_yaw b_shearExp b_hubHt b_opts b_iterRe b_precurve b_precurveTip b_presweep b_presweepTip b_rotorR b_nSector b_inverse b_cl b_cd b_alpha b_pitch].
  change (fun c : R => INR (g_B g) / INR n * c) with (Rmult k). reflexivity.
Qed.

Section Object.
Variables (k : R) (n : nat) (npi : R) (bq : rootfinder fl).
Hypothesis Hk : 0 < k.

(** What is needed of the object. *)
Definition no_losses (b : blade) : Prop := INR (b_B b) = k * INR n /\ tipLoss (b_opts b) = false /\ hubLoss (b_opts b) = false /\
  b_inverse b = false /\ (forall f, In f (b_af b) -> ignores_Re f).

Lemma sol_station_i b p U Om az i : no_losses b ->
  corresponds (fun x y => fst x = fst y /\ same_flow k (snd x) (snd y))
    (station_i npi bq b p Om (wind b U Om az) i) (station_i npi bq (sol_blade k n b) p Om (wind (sol_blade k n b) U Om az) i).
Proof.
  intros (HB & Ht & Hh & Hi & Ha). unfold station_i. change (wind (sol_blade k n b) U Om az) with (wind b U Om az).
  cbn [sol_blade b_r b_chord b_af b_inverse b_theta]. rewrite Hi.
  apply (corr_bind _ _ _ _ _ _ (corr_refl _)). intros r ? <-. apply (corr_bind _ _ _ _ _ _ (pyget_map k _ i)). intros c ? ->.
  assert (HA : corresponds (fun x y => x = y /\ In x (b_af b)) (pyget (b_af b) i) (pyget (b_af b) i)).
  { unfold pyget. destruct (nth_error (b_af b) i) eqn:E; [|reflexivity]. cbn. split; [reflexivity|]. eapply nth_error_In. exact E. }
  apply (corr_bind _ _ _ _ _ _ HA). intros af ? [<- Hin].
  apply (corr_bind _ _ _ _ _ _ (corr_refl _)). intros th ? <-.
  eapply corr_bind.
  { apply (sol_station k n (rotor_of b p) Hk HB Ht Hh (Fin r) (Fin c) th (Fin (fst (wind b U Om az) i)) (Fin (snd (wind b U Om az) i)) af (Ha af Hin)). }
  intros l l' Hl. cbn. split; [reflexivity|exact Hl].
Qed.

Lemma sol_distributed b U Om p az : no_losses b ->
  corresponds (fun x y => fst y = sol_blade k n (fst x) /\ Forall2 (same_flow k) (snd x) (snd y))
    (distributedAeroLoads npi bq b U Om p az) (distributedAeroLoads npi bq (sol_blade k n b) U Om p az).
Proof.
  intros Hb. unfold distributedAeroLoads. change (shapes_ok (sol_blade k n b)) with (shapes_ok b). destruct (negb (shapes_ok b)); [reflexivity|]. cbv zeta.
  change (length (b_r (sol_blade k n b))) with (length (b_r b)).
  eapply corr_bind. { apply corr_mapM. intros i _. apply sol_station_i. exact Hb. }
  pose proof Hb as (_ & _ & _ & Hi & _).
  intros xs ys H. cbn. rewrite Hi. split; [reflexivity|].
  induction H as [|x y xs ys [_ E] _ IH]; cbn; constructor; assumption.
Qed.

Lemma distributed_keeps b U Om p az b' ls : no_losses b -> distributedAeroLoads npi bq b U Om p az = Ok (b', ls) -> no_losses b'.
Proof.
  intros (HB & Ht & Hh & Hi & Ha). unfold distributedAeroLoads. destruct (negb _); [discriminate|]. cbv zeta. intros H. apply bind_ok in H. destruct H as (out & _ & H).
  apply ok_inj in H. apply pair_equal_spec in H. destruct H as [<- _]. unfold no_losses. cbn. auto.
Qed.

(** ** evaluate *)
Definition sol_tot (t : totals) : totals := mkTot (t_T t) (t_Y t) (t_Z t) (t_Q t) (t_My t) (t_Mz t) (k * t_Mb t).

Lemma sol_add b az Np Tp t : no_losses b ->
  tot_add (sol_blade k n b) az (map (Rmult k) Np) (map (Rmult k) Tp) (sol_tot t) = sol_tot (tot_add b az Np Tp t).
Proof.
  intros (HB & _). unfold tot_add.
  cbn [sol_blade b_B b_nSector b_r b_precurve b_presweep b_precone b_Rhub b_Rtip b_precurveTip b_presweepTip].
  assert (ONE : forall f : arr, tms 1 f = f) by (intros f; apply functional_extensionality; intros i; unfold tms; ring).
  pose proof (sim_thrust k 1 (length (b_r b)) (aget Np) (aget Tp) (aget (b_r b)) (aget (b_precurve b)) (aget (b_presweep b)) (b_precone b) (b_Rhub b) (b_Rtip b)
    (b_precurveTip b) (b_presweepTip b) ltac:(lra)) as ST.
  rewrite !ONE, !Rmult_1_l in ST. rewrite !aget_map, ST. clear ST. set (TT := thrustTorque _ (aget Np) _ _ _ _ _ _ _ _ _).
  destruct TT as [[[[T Y] Z] Q] M]. rewrite HB. unfold sol_tot. cbn [t_T t_Y t_Z t_Q t_My t_Mz t_Mb].
  f_equal; unfold Rdiv; ring.
Qed.

Lemma flow_lists ls ls' : Forall2 (same_flow k) ls ls' -> map o_Np ls' = map (scaled k) (map o_Np ls) /\
  map o_Tp ls' = map (scaled k) (map o_Tp ls) /\ map o_W ls' = map o_W ls.
Proof.
  induction 1 as [|l l' ls ls' H _ (A & B & C)]; [auto|]. destruct H as (_ & _ & _ & _ & _ & _ & _ & HW & _ & HN & HT & _).
  cbn [map]. rewrite A, B, C, HN, HT, HW. auto.
Qed.

Definition sol_state {X Y} (Q : X -> Y -> Prop) (x : blade * X * option (list fl)) (y : blade * Y * option (list fl)) : Prop :=
  fst (fst y) = sol_blade k n (fst (fst x)) /\ no_losses (fst (fst x)) /\ Q (snd (fst x)) (snd (fst y)) /\ snd y = snd x.

Lemma sol_azimuth U Om p : forall azs b acc W, no_losses b ->
  corresponds (sol_state (fun t t' => t' = option_map sol_tot t))
    (azimuth_loop npi bq azs b U Om p acc W) (azimuth_loop npi bq azs (sol_blade k n b) U Om p (option_map sol_tot acc) W).
Proof.
  induction azs as [|az azs IH]; intros b acc W Hb; cbn [azimuth_loop].
  { cbn. unfold sol_state. cbn. auto. }
  pose proof (sol_distributed b U Om p (degrees az) Hb) as D.
  destruct (distributedAeroLoads npi bq b U Om p (degrees az)) as [[b1 ls]|e] eqn:E1,
           (distributedAeroLoads npi bq (sol_blade k n b) U Om p (degrees az)) as [[b2 ls']|e'] eqn:E2; cbn [corresponds] in D; try contradiction; [|exact D].
  cbn [fst snd] in D. destruct D as [-> F]. cbn [bind]. pose proof (distributed_keeps _ _ _ _ _ _ _ Hb E1) as Hb1.
  destruct (flow_lists ls ls' F) as (FN & FT & FW). rewrite FN, FT, FW, !fvals_scale.
  match goal with |- corresponds _ (azimuth_loop _ _ _ _ _ _ _ ?x _) (azimuth_loop _ _ _ _ _ _ _ ?y _) => replace y with (option_map sol_tot x) end.
  - apply (IH b1 _ (Some (map o_W ls))). exact Hb1.
  - destruct acc as [t|]; cbn [option_map]; [|reflexivity]. destruct (fvals (map o_Np ls)); cbn [option_map]; [|reflexivity].
    destruct (fvals (map o_Tp ls)); cbn [option_map]; [|reflexivity]. f_equal. symmetry. apply sol_add. exact Hb.
Qed.

Lemma sol_conditions : forall conds b W, no_losses b ->
  corresponds (sol_state (fun ts ts' => ts' = map (option_map sol_tot) ts))
    (condition_loop npi bq conds b W) (condition_loop npi bq conds (sol_blade k n b) W).
Proof.
  induction conds as [|[[U Om] p] conds IH]; intros b W Hb; cbn [condition_loop].
  { cbn. unfold sol_state. cbn. auto. }
  change (b_nSector (sol_blade k n b)) with (b_nSector b).
  assert (T0 : Some tot0 = option_map sol_tot (Some tot0)) by (unfold sol_tot, tot0; cbn; rewrite !Rmult_0_r; reflexivity).
  rewrite T0 at 2.
  eapply corr_bind; [apply sol_azimuth; assumption|]. intros [[b1 t] W1] [[b2 t'] W2] (A & B & C & D). cbn [fst snd] in *. subst b2 t' W2.
  eapply corr_bind; [apply IH; exact B|]. intros [[b3 ts] W3] [[b4 ts'] W4] (A' & B' & C' & D'). cbn [fst snd] in *. subst b4 ts' W4.
  cbn. unfold sol_state. cbn. auto.
Qed.

Lemma sol_finish b U Om t : same_rotor k (finish b U Om t) (finish (sol_blade k n b) U Om (sol_tot t)).
Proof.
  unfold same_rotor, finish. cbn [y_P y_tot y_CP y_CT y_CY y_CZ y_CQ y_CMy y_CMz y_CMb sol_tot sol_blade b_rho b_rotorR t_T t_Y t_Z t_Q t_My t_Mz t_Mb].
  do 15 (split; [reflexivity|]). unfold Rdiv. ring.
Qed.

Lemma sol_evaluate b conds : no_losses b ->
  corresponds (fun x y => snd y = snd x /\ Forall2 (same_rotor_opt k) (fst x) (fst y))
    (returned (evaluate npi bq b conds)) (returned (evaluate npi bq (sol_blade k n b) conds)).
Proof.
  intros Hb. unfold evaluate, returned. pose proof (sol_conditions conds b None Hb) as C.
  destruct (condition_loop npi bq conds b None) as [[[b1 ts] W]|e] eqn:E1,
           (condition_loop npi bq conds (sol_blade k n b) None) as [[[b2 ts'] W']|e'] eqn:E2; cbn [corresponds] in C; try contradiction; [|exact C].
  destruct C as (A & _ & B & D). cbn [fst snd] in *. subst b2 ts' W'. cbn [bind]. destruct W as [w|]; [|reflexivity].
  cbn [bind corresponds fst snd]. split; [reflexivity|]. clear E1 E2.
  revert ts. induction conds as [|[[U Om] p] conds IH]; intros ts; [constructor|]. destruct ts as [|t ts]; [constructor|]. cbn [map combine].
  constructor; [|apply IH]. destruct t as [t|]; cbn; [apply sol_finish|exact I].
Qed.
End Object.
