(** Derivatives returned by the class CCBlade (C37-C41, C64, C65). *)
From Coquelicot Require Import Coquelicot.
From Coq Require Import Reals Bool Arith List Lra Lia.
From Verif Require Import Prelim Num Bem BemGeomSpec IndSpec DiffSpec BemDiff DeriveLib Blade BladeDiff BladeDiffSpec
  StationDvProofs BladeDvProofs EvalDvProofs BladeDvExample BladeDvRefute.
Import ListNotations.
Open Scope R_scope.

(** C37. [N] and [Res] are any functions of x = (phi, x_1, ..., x_8) with gradients gN, gR. Along every differentiable curve
    on which Res stays 0, the rate of N is the inner product of [total gN gR] with the rates of x_1, ..., x_8. *)
Theorem C37_implicit_total : forall (N Res : (nat -> R) -> R) (x gN gR : nat -> R) (X : nat -> R -> R) (t : R) (d : nat -> R),
  gradient 9 N x gN -> gradient 9 Res x gR -> gR 0%nat <> 0 ->
  (forall i, (i < 9)%nat -> X i t = x i) -> curves_derive 9 X t d ->
  locally t (fun s => Res (at_time X s) = 0) ->
  is_derive (fun s => N (at_time X s)) t (inner 8 (total gN gR) (fun j => d (S j))).
Proof. exact total_exact. Qed.
Print Assumptions C37_implicit_total.

Example C37_example : (* N = x0 * x1, Res = x0 - x1^2 on the curve x1 = s, x0 = s^2 at s = 2: the total derivative is 3 s^2 = 12 *)
  let N := fun y : nat -> R => y 0%nat * y 1%nat in let Res := fun y : nat -> R => y 0%nat - y 1%nat ^ 2 in
  let x := fun i => nth i [4; 2] 0 in
  let gN := fun i => nth i [2; 4] 0 in let gR := fun i => nth i [1; -4] 0 in
  let X := fun i s => match i with 0%nat => s ^ 2 | 1%nat => s | _ => 0 end in
  let d := fun i => nth i [4; 1] 0 in
  gradient 9 N x gN /\ gradient 9 Res x gR /\ gR 0%nat <> 0 /\ (forall i, (i < 9)%nat -> X i 2 = x i) /\ curves_derive 9 X 2 d /\
  locally 2 (fun s => Res (at_time X s) = 0) /\ inner 8 (total gN gR) (fun j => d (S j)) = 12.
Proof.
  intros N Res x gN gR X d.
  split; [|split; [|split; [|split; [|split; [|split]]]]].
  - intros Y t e E HY. pose proof (HY 0%nat ltac:(lia)) as H0. pose proof (HY 1%nat ltac:(lia)) as H1.
    pose proof (E 0%nat ltac:(lia)) as E0. pose proof (E 1%nat ltac:(lia)) as E1.
    unfold N, at_time. der. rewrite E0, E1. unfold x, gN. cbn. ring.
  - intros Y t e E HY. pose proof (HY 0%nat ltac:(lia)) as H0. pose proof (HY 1%nat ltac:(lia)) as H1.
    pose proof (E 1%nat ltac:(lia)) as E1.
    unfold Res, at_time. der. rewrite E1. unfold x, gR. cbn. ring.
  - cbn. lra.
  - intros i Hi. unfold X, x. do 9 (destruct i as [|i]; [cbn; lra|]). lia.
  - intros i Hi. unfold X, d. do 2 (destruct i as [|i]; [cbn [nth]; der; ring|]). do 7 (destruct i as [|i]; [cbn; apply d_const|]). lia.
  - apply filter_forall. intros s. unfold Res, at_time, X. ring.
  - unfold total, gN, gR, d. cbn. field.
Qed.

(** C38. One station with iterRe = 1, x = [phi, chord, theta, Vx, Vy, r, Rhub, Rtip, pitch]. *)
Theorem C38_section_load_gradients : forall rt af afd x l dNp dTp dR,
  rt_iterRe rt = 1%nat -> re_free af -> regular_station rt af afd x -> (forall Re, smooth_airfoil af afd (aoa x) Re) ->
  loads_dv (rotor_at rt x) (x 0%nat) true (sect_at af x) afd = Ok (l, dNp, dTp, dR) ->
  wind_branch (x 0%nat) (o_a l) (o_ap l) (x 3%nat) (x 4%nat) ->
  gradient 9 (station_Np rt true af) x dNp /\ (o_ct l <> 0 -> gradient 9 (station_Tp rt true af) x dTp) /\
  gradient 9 (station_res rt af) x dR.
Proof. exact loads_gradient_rot. Qed.
Print Assumptions C38_section_load_gradients.

Example C38_example : (* a station of the rotor of BladeDvExample.v *)
  let D := sector_design (ex_D 10) 0 in let x := xvec ex_fx D 1 (ex_phi 1 10) in
  rt_iterRe (rotor_d ex_fx D) = 1%nat /\ re_free ex_af /\ regular_station (rotor_d ex_fx D) ex_af ex_afd x /\
  (forall Re, smooth_airfoil ex_af ex_afd (aoa x) Re).
Proof.
  split; [reflexivity|]. split; [intros a b c; reflexivity|]. split; [apply ex_regular; [lra|lia]|]. intros; apply ex_smooth.
Qed.

(** C39. False for Reynolds-dependent airfoils: the coefficients are taken at the Reynolds number without induction, their
    derivatives at the one with induction. *)
Theorem C39_reynolds_refuted : exists rt af afd x l dNp dTp dR,
  rt_iterRe rt = 1%nat /\ regular_station rt af afd x /\ (forall al Re, smooth_airfoil af afd al Re) /\
  loads_dv (rotor_at rt x) (x 0%nat) true (sect_at af x) afd = Ok (l, dNp, dTp, dR) /\
  wind_branch (x 0%nat) (o_a l) (o_ap l) (x 3%nat) (x 4%nat) /\ o_cn l <> 0 /\ o_ct l <> 0 /\
  ~ gradient 9 (station_Tp rt true af) x dTp.
Proof. exact re_refuted. Qed.
Print Assumptions C39_reynolds_refuted.

(** What holds for every differentiable airfoil: the residual's gradient, and the loads of a parked rotor. *)
Theorem C39_residual_gradient_partial : forall rt af afd x, regular_station rt af afd x ->
  gradient 9 (station_res rt af) x (fst (fst (residualDerivatives (rotor_at rt x) (x 0%nat) (sect_at af x) afd))).
Proof. exact res_gradient. Qed.
Print Assumptions C39_residual_gradient_partial.

Theorem C39_parked_gradients_partial : forall rt af afd phi x l dNp dTp dR,
  rt_mu rt <> 0 -> x 2%nat <> 0 -> x 3%nat <> 0 -> smooth_airfoil af afd (aoa (with_phi phi x)) (Re0 rt (with_phi phi x)) ->
  loads_dv (rotor_at rt (with_phi phi x)) phi false (sect_at af (with_phi phi x)) afd = Ok (l, dNp, dTp, dR) ->
  gradient 8 (fun y => station_Np rt false af (with_phi phi y)) x (total dNp dR) /\
  (o_ct l <> 0 -> gradient 8 (fun y => station_Tp rt false af (with_phi phi y)) x (total dTp dR)).
Proof. exact loads_gradient_park. Qed.
Print Assumptions C39_parked_gradients_partial.

Example C39_example : (* the Reynolds-dependent station of the refutation *)
  regular_station re_rotor re_af re_afd (re_x 3) /\ ~ re_free re_af.
Proof.
  pose proof PI_RGT_0 as HP. split.
  - unfold regular_station. split; [cbn; lra|]. split; [cbn; lra|]. split; [cbn; lra|]. split; [cbn; lra|]. split; [apply re_smooth|].
    unfold re_af, regular_ind. change (re_x 3 5%nat) with 1. change (re_x 3 1%nat) with 1. change (re_x 3 0%nat) with (PI / 2).
    cbn [rt_opts re_rotor rt_B]. rewrite sin_PI2. split; [lra|]. split; [lra|]. split; [split; intros X; discriminate X|].
    split; [|intros X; discriminate X]. left. split; [lra|].
    assert (Ek : forall Re, loading ex_opts 1 1 1 (re_x 3 6%nat) (re_x 3 7%nat) (PI / 2) Re (8 * PI / 3) = 1 / 3).
    { intros Re. unfold loading, solidity, coef_n, lossF, ex_opts. cbn [useCd hubLoss tipLoss INR]. rewrite sin_PI2, cos_PI2. field. lra. }
    rewrite Ek. lra.
  - intros H. specialize (H 0 0 1). unfold re_af in H. apply (f_equal fst) in H. cbn in H. lra.
Qed.

(** C40. False: on a bent blade Vx at a station depends on r of its neighbour (with all else equal), while the reported dNp/dr
    and dTp/dr are always diagonal. *)
Theorem C40_dr_diagonal_refuted :
  (exists fx d d', f_n fx = 2%nat /\ x_r d 1%nat = x_r d' 1%nat /\ d' = with_rps d (x_r d') (x_presweep d) /\
     fst (wind_d fx d) 1%nat <> fst (wind_d fx d') 1%nat) /\
  (forall npi bq fx d Np Tp dNp dTp, distributed_dv npi bq fx d = Ok (Np, Tp, dNp, dTp) ->
     forall i j, i <> j -> l_dr dNp i j = 0 /\ l_dr dTp i j = 0).
Proof. exact (conj bent_refuted dr_diagonal). Qed.
Print Assumptions C40_dr_diagonal_refuted.

(** True for straight blades. *)
Theorem C40_straight_blade_partial : forall fx d r i, (2 <= f_n fx)%nat -> (i < f_n fx)%nat -> r i = x_r d i ->
  (exists c, forall j, (j < f_n fx)%nat -> x_precurve d j = c) -> - PI < radians (x_precone d) < PI ->
  (forall j, (S j < f_n fx)%nat -> x_r d j < x_r d (S j)) -> (forall j, (S j < f_n fx)%nat -> r j < r (S j)) ->
  fst (wind_d fx (with_rps d r (x_presweep d))) i = fst (wind_d fx d) i /\
  snd (wind_d fx (with_rps d r (x_presweep d))) i = snd (wind_d fx d) i.
Proof. exact wind_r_local. Qed.
Print Assumptions C40_straight_blade_partial.

Example C40_example : let d := ex_D 10 in let r := fun i => nth i [1 / 2; 2] 0 in
  r 1%nat = x_r d 1%nat /\ (exists c, forall j, (j < 2)%nat -> x_precurve d j = c) /\ - PI < radians (x_precone d) < PI /\
  (forall j, (S j < 2)%nat -> x_r d j < x_r d (S j)) /\ (forall j, (S j < 2)%nat -> r j < r (S j)).
Proof.
  pose proof PI_RGT_0. cbv zeta. split; [cbn; lra|]. split; [exists 0; intros j _; apply ex_zero|]. split; [cbn [ex_D x_precone]; rewrite deg0; lra|].
  split; intros j Hj; assert (j = 0)%nat by lia; subst j; cbn; lra.
Qed.

(** C41. False for every iterRe >= 2: the ValueError is created and dropped. *)
Theorem C41_iterRe_refuted : forall npi m, (2 <= m)%nat ->
  exists bq fx d out, f_iterRe fx = m /\ distributed_dv npi bq fx d = Ok out.
Proof. exact iterRe_refuted. Qed.
Print Assumptions C41_iterRe_refuted.

(** With Reynolds-independent airfoils the answer is the one for iterRe = 1, to which C38 and C64 apply. *)
Theorem C41_reynolds_free_partial : forall npi bq fx D m, (forall i, re_free (f_af fx i)) ->
  distributed_dv npi bq (with_iterRe (S m) fx) D = distributed_dv npi bq (with_iterRe 1 fx) D.
Proof. exact distributed_free. Qed.
Print Assumptions C41_reynolds_free_partial.

(** C64. The dictionaries of distributedAeroLoads. The design and its rates are in the user's units (angles in degrees); the
    load's rate is the inner product of the dictionary's entries with the rates of the variables they are named after. *)
Theorem C64_load_dictionaries : forall npi bq fx (D : R -> design) (t : R) (v : design) Np Tp dNp dTp,
  (2 <= f_n fx)%nat -> design_derive (f_n fx) D t v -> wind_ok fx D t -> radial_ok (f_n fx) (D t) v ->
  (forall i, (i < f_n fx)%nat -> station_ok npi bq fx D t i) ->
  distributed_dv npi bq fx (D t) = Ok (Np, Tp, dNp, dTp) ->
  forall i, (i < f_n fx)%nat -> exists l, station_result npi bq fx (D t) i = Ok l /\ Np i = o_Np l /\ Tp i = o_Tp l /\
    is_derive (fun s => blade_Np npi bq fx (D s) i) t (load_rate (f_n fx) dNp v i) /\
    (o_ct l <> 0 -> is_derive (fun s => blade_Tp npi bq fx (D s) i) t (load_rate (f_n fx) dTp v i)).
Proof. exact distributed_rate. Qed.
Print Assumptions C64_load_dictionaries.

(** The dictionaries of evaluate, for the forces, moments and power. *)
Theorem C64_evaluate_dictionaries : forall npi bq fx (D : R -> design) (t : R) (v : design) E,
  (2 <= f_n fx)%nat -> (1 <= f_nSector fx)%nat -> design_derive (f_n fx) D t v -> sectors_ok npi bq fx D t v ->
  evaluate_dv npi bq fx (D t) = Ok E ->
  let T s := rotor_totals npi bq fx (D s) in
  let rate e := total_rate (f_n fx) e v in
  ev_tot E = T t /\ ev_P E = power (T t) (D t) /\
  is_derive (fun s => t_T (T s)) t (rate (ev_dT E)) /\ is_derive (fun s => t_Y (T s)) t (rate (ev_dY E)) /\
  is_derive (fun s => t_Z (T s)) t (rate (ev_dZ E)) /\ is_derive (fun s => t_Q (T s)) t (rate (ev_dQ E)) /\
  is_derive (fun s => t_My (T s)) t (rate (ev_dMy E)) /\ is_derive (fun s => t_Mz (T s)) t (rate (ev_dMz E)) /\
  is_derive (fun s => t_Mb (T s)) t (rate (ev_dMb E)) /\ is_derive (fun s => power (T s) (D s)) t (rate (ev_dP E)).
Proof. exact evaluate_rate. Qed.
Print Assumptions C64_evaluate_dictionaries.

Example C64_example : forall npi, (* see BladeDvExample.v *)
  (design_derive 2 ex_D 10 ex_v /\ wind_ok ex_fx ex_D 10 /\ radial_ok 2 (ex_D 10) ex_v /\
   (forall i, (i < 2)%nat -> station_ok npi ex_bq ex_fx ex_D 10 i) /\
   exists o, distributed_dv npi ex_bq ex_fx (ex_D 10) = Ok o) /\
  sectors_ok npi ex_bq ex_fx ex_D 10 ex_v /\ (exists E, evaluate_dv npi ex_bq ex_fx (ex_D 10) = Ok E).
Proof.
  intros npi. split; [apply ex_distributed; lra|]. destruct (ex_evaluate 4 npi 10 ltac:(lra)) as (_ & A & B & _). split; assumption.
Qed.

(** C65. The dictionaries of the coefficients (quotient rule); dP is in C64_evaluate_dictionaries. *)
Theorem C65_coefficient_gradients : forall npi bq fx (D : R -> design) (t : R) (v : design) E,
  (2 <= f_n fx)%nat -> (1 <= f_nSector fx)%nat -> design_derive (f_n fx) D t v -> sectors_ok npi bq fx D t v ->
  evaluate_dv npi bq fx (D t) = Ok E -> rotor_radius (D t) <> 0 -> x_Uinf (D t) <> 0 -> f_rho fx <> 0 ->
  let T s := rotor_totals npi bq fx (D s) in
  let rate e := total_rate (f_n fx) e v in
  let F s := force_scale fx (D s) in let M s := moment_scale fx (D s) in
  (t_T (T t) <> 0 -> is_derive (fun s => t_T (T s) / F s) t (rate (ev_dCT E))) /\
  (t_Y (T t) <> 0 -> is_derive (fun s => t_Y (T s) / F s) t (rate (ev_dCY E))) /\
  (t_Z (T t) <> 0 -> is_derive (fun s => t_Z (T s) / F s) t (rate (ev_dCZ E))) /\
  (t_Q (T t) <> 0 -> is_derive (fun s => t_Q (T s) / M s) t (rate (ev_dCQ E))) /\
  (t_My (T t) <> 0 -> is_derive (fun s => t_My (T s) / M s) t (rate (ev_dCMy E))) /\
  (t_Mz (T t) <> 0 -> is_derive (fun s => t_Mz (T s) / M s) t (rate (ev_dCMz E))) /\
  (t_Mb (T t) <> 0 -> is_derive (fun s => t_Mb (T s) / M s) t (rate (ev_dCMb E))) /\
  (t_Q (T t) <> 0 -> x_Omega (D t) <> 0 ->
     is_derive (fun s => power (T s) (D s) / (F s * x_Uinf (D s))) t (rate (ev_dCP E))).
Proof. exact evaluate_coeff_rate. Qed.
Print Assumptions C65_coefficient_gradients.

Example C65_example : forall npi, sectors_ok npi ex_bq ex_fx ex_D 10 ex_v /\ (exists E, evaluate_dv npi ex_bq ex_fx (ex_D 10) = Ok E) /\
  rotor_radius (ex_D 10) <> 0 /\ x_Uinf (ex_D 10) <> 0 /\ f_rho ex_fx <> 0 /\ x_Omega (ex_D 10) <> 0.
Proof.
  intros npi. destruct (ex_evaluate 4 npi 10 ltac:(lra)) as (_ & A & B & C & D & E). do 5 (split; [assumption|]).
  pose proof PI_RGT_0. cbn. apply Rgt_not_eq, Rdiv_lt_0_compat; lra.
Qed.
