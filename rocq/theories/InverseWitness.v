(** An inverse design whose equation has a known solution, for C42. *)
From Coquelicot Require Import Coquelicot.
From Coq Require Import Reals Bool Arith List Lra Lia.
From Verif Require Import Prelim Num Bem BemGeomProofs IndSpec IndProofs BemDiff Blade BladeSpec FlProofs StationProofs StationWitness StationExist StationLoads BladeProofs
  SectorWitness InverseProofs Component InverseForward.
Import ListNotations.
Open Scope R_scope.

(** The residual of a drag-only section. *)
Lemma drag_residual B r chord t p Vx Vy Rhub Rtip rho mu phi : (1 <= B)%nat -> 0 < Rhub < r -> r < Rtip -> mu <> 0 -> 0 < Vx -> 0 < Vy ->
  0 < phi < PI -> cos phi <> 0 ->
  rep (errf (mkRotor (Fin Rhub) (Fin Rtip) B (Fin rho) (Fin mu) off 1 (Fin p)) (mkSect (Fin r) (Fin chord) (Fin t) drag_af (Fin Vx) (Fin Vy)) 0 (Fin phi))
    (sin phi - Vx / Vy * cos phi).
Proof.
  intros HB Hh Ht Hmu HV HV2 Hphi Hcs.
  set (rt := mkRotor (Fin Rhub) (Fin Rtip) B (Fin rho) (Fin mu) off 1 (Fin p)).
  set (sc := mkSect (Fin r) (Fin chord) (Fin t) drag_af (Fin Vx) (Fin Vy)).
  assert (Haf : computes (s_af sc) (fun _ _ => 0) (fun _ _ => 1)) by (intros al' Re' al Re _ _; split; reflexivity).
  assert (Hin : inside B r Rhub Rtip phi) by (unfold inside; auto).
  pose proof (residual_rep rt sc r chord t Vx Vy Rhub Rtip rho mu p (fun _ _ => 0) (fun _ _ => 1) phi
      (rep_Fin _) (rep_Fin _) (rep_Fin _) (rep_Fin _) (rep_Fin _) (rep_Fin _) (rep_Fin _) (rep_Fin _) (rep_Fin _) (rep_Fin _)
      Haf Hmu ltac:(lra) ltac:(lra) Hin Hcs) as H. cbv zeta in H.
  change (rt_opts rt) with off in H. change (rt_B rt) with B in H.
  rewrite drag_loading in H. specialize (H ltac:(lra)). rewrite drag_ind in H by auto.
  unfold out_fzero in H. cbn [fst] in H.
  replace (sin phi - Vx / Vy * cos phi) with (sin phi - cos phi / (Vy / Vx)) by (field; lra). exact H.
Qed.

(** A root finder that looks at pi/4 only. *)
Definition quarter (f : fl -> fl) (lo hi : fl) : res fl :=
  match fval lo, fval hi, fval (f (Fin (PI / 4))) with
  | Some a, Some b, Some v => if andb (reqb v 0) (andb (rleb a (PI / 4)) (rleb (PI / 4) b)) then Ok (Fin (PI / 4)) else Raise ValueError
  | _, _, _ => Raise ValueError
  end.
Lemma quarter_cases f lo hi : quarter f lo hi = Raise ValueError \/ (quarter f lo hi = Ok (Fin (PI / 4)) /\ rep (f (Fin (PI / 4))) 0 /\
  exists a b, rep lo a /\ rep hi b /\ a <= PI / 4 <= b).
Proof.
  unfold quarter, rep. destruct (fval lo) as [a|]; [|auto]. destruct (fval hi) as [b|]; [|auto]. destruct (fval (f (Fin (PI / 4)))) as [v|]; [|auto].
  destruct (reqb v 0) eqn:E; [|auto]. destruct (rleb a (PI / 4)) eqn:E1; [|auto]. destruct (rleb (PI / 4) b) eqn:E2; [|auto].
  cbn [andb]. right. apply reqb_true in E. apply rleb_true in E1, E2. subst v. split; [reflexivity|]. split; [reflexivity|]. exists a, b. auto.
Qed.
Lemma quarter_zeros : finds_zeros quarter.
Proof.
  intros f lo hi v E. destruct (quarter_cases f lo hi) as [H|(H & Z & _)]; rewrite H in E; [discriminate|].
  apply ok_inj in E. subst v. exact Z.
Qed.
Lemma quarter_inside : root_inside quarter.
Proof.
  intros f lo hi x _ E. destruct (quarter_cases f (Fin lo) (Fin hi)) as [H|(H & _ & a & b & Ra & Rb & I)]; rewrite H in E; [discriminate|].
  apply ok_inj in E. symmetry in E. exists (PI / 4). unfold rep in Ra, Rb. cbn in Ra, Rb. injection Ra; injection Rb; intros <- <-. auto.
Qed.

(** Two stations, drag-only sections, asking for 1/10 rad everywhere; no lift, drag coefficient 1 at that angle. *)
Definition q_blade : blade :=
  mkBlade [1; 2] [1; 1] [Fin 0; Fin 0] [drag_af; drag_af] (1 / 2) 3 2 1 1 0 0 0 0 80 off 1
    [0; 0] 0 [0; 0] 0 3 1 true [0; 0] [1; 1] [1 / 10; 1 / 10] 0.

Lemma q_solve npi p : 3 < npi < PI -> solve npi quarter (errf_inverse (rotor_of q_blade p) (Fin 1) (Fin 1) (Fin 0) (Fin 1) (Fin 1) (Fin 1)) = Ok (Fin (PI / 4)).
Proof.
  intros Hn. set (f := errf_inverse _ _ _ _ _ _ _). pose proof PI2_1 as HP. pose proof PI_4 as HP4.
  assert (FR : forall phi, 0 < phi < PI -> cos phi <> 0 -> rep (f (Fin phi)) (sin phi - cos phi)).
  { intros phi H1 H2. unfold f.
    rewrite <- (inverse_residual (rotor_of q_blade p) (Fin 1) (Fin 1) (Fin 0) (Fin 1) (Fin 1) (Fin 1) drag_af (1 / 10) p phi 0 eq_refl (fun _ _ _ => eq_refl) (Fin (phi - 1 / 10 - p)) (rep_Fin _)).
    replace (sin phi - cos phi) with (sin phi - 1 / 1 * cos phi) by field. apply drag_residual; try lia; try lra; try assumption; try (cbn; lra); cbn; lia. }
  destruct eps_trig as ((S0 & S1) & C0 & C1). destruct (half_trig npi Hn) as ((C2 & C3) & S2 & S3).
  assert (N : exists x, f (Fin eps) = Fin x /\ x < 0).
  { destruct (rep_inv _ _ (FR eps ltac:(unfold eps; lra) ltac:(lra))) as [->|[_ E]]; [eexists; split; [reflexivity|lra]|lra]. }
  assert (Q : exists y, f (Fin (npi / 2)) = Fin y /\ 0 < y).
  { destruct (rep_inv _ _ (FR (npi / 2) ltac:(lra) ltac:(lra))) as [->|[_ E]]; [eexists; split; [reflexivity|lra]|lra]. }
  unfold solve. replace (bracket npi f) with (Fin eps, Fin (npi / 2)).
  - destruct (quarter_cases f (Fin eps) (Fin (npi / 2))) as [H|(H & _)]; [|rewrite H; reflexivity].
    exfalso. unfold quarter in H. cbn [fval] in H. pose proof (FR (PI / 4) ltac:(lra) ltac:(apply Rgt_not_eq, cos_gt_0; lra)) as Z.
    rewrite sin_PI4, cos_PI4, Rminus_diag_eq in Z by reflexivity. unfold rep in Z. rewrite Z in H.
    replace (reqb 0 0) with true in H by (symmetry; apply reqb_true; reflexivity).
    replace (rleb eps (PI / 4)) with true in H by (symmetry; apply rleb_true; unfold eps; lra).
    replace (rleb (PI / 4) (npi / 2)) with true in H by (symmetry; apply rleb_true; lra). discriminate H.
  - unfold bracket. cbn [ofR nmul nlt fl_arith]. destruct N as (x & -> & Hx), Q as (y & -> & Hy). cbn [fmul].
    replace (reqb x 0) with false by (symmetry; apply reqb_false; lra). replace (reqb y 0) with false by (symmetry; apply reqb_false; lra). cbn [orb].
    replace (flt (Fin 0) (Fin (x * y))) with false by (symmetry; cbn; apply rltb_false; nra). reflexivity.
Qed.

Lemma quarter_solves npi f : exists phi, solve npi quarter f = Ok phi.
Proof. unfold solve. destruct (bracket npi f) as [lo hi]. destruct (quarter_cases f lo hi) as [->|(-> & _)]; eauto. Qed.
Lemma q_wind az i : (i < 2)%nat -> fst (wind q_blade 1 (30 / PI) az) i = 1 /\ snd (wind q_blade 1 (30 / PI) az) i = INR i + 1.
Proof. exact (d_wind az i). Qed.
Lemma q_omega : reqb (30 / PI) 0 = false.
Proof. apply reqb_false. pose proof PI_RGT_0. apply Rgt_not_eq, Rdiv_lt_0_compat; lra. Qed.

Lemma q_design npi p : 3 < npi < PI -> exists b' l0 l1, distributedAeroLoads npi quarter q_blade 1 (30 / PI) p 0 = Ok (b', [l0; l1]) /\
  rep (nth 0 (b_theta b') NaN) (PI / 4 - 1 / 10 - radians p) /\ length (b_theta b') = 2%nat /\ b' = set_call q_blade (b_theta b') (radians p).
Proof.
  intros Hn. assert (S : forall rt r c cl cd al af Vx Vy, rt_iterRe rt = 1%nat ->
     exists t l, solve_station_inverse npi quarter rt true r c cl cd al af Vx Vy = Ok (t, l) /\
       exists phi, solve npi quarter (errf_inverse rt r c cl cd Vx Vy) = Ok phi /\ t = nsub (nsub phi al) (rt_pitch rt)).
  { intros rt r c cl cd al af Vx Vy Hi. unfold solve_station_inverse. rewrite Hi.
    destruct (quarter_solves npi (errf_inverse rt r c cl cd Vx Vy)) as (phi & E). rewrite E. cbn [bind].
    match goal with |- context [loads rt phi true ?s] => destruct (loads_ok rt phi true s 0 Hi) as (l0 & ->) end.
    cbn [bind]. destruct (nan_guard_ok l0) as (l & ->). cbn [bind]. eauto 8. }
  unfold distributedAeroLoads. change (shapes_ok _) with true. cbn [negb]. cbv zeta.
  change (seq 0 (length (b_r q_blade))) with [0%nat; 1%nat].
  cbn [mapM]. unfold station_i. rewrite q_omega. cbv zeta.
  cbn [q_blade b_r b_chord b_theta b_af b_cl b_cd b_alpha b_inverse pyget nth_error bind negb]. fold q_blade.
  destruct (q_wind (radians 0) 0 ltac:(lia)) as (-> & ->). replace (INR 0 + 1) with 1 by (cbn; ring).
  match goal with |- context [solve_station_inverse npi quarter ?rt true ?r ?c ?cl ?cd ?al ?af ?Vx ?Vy] =>
    destruct (S rt r c cl cd al af Vx Vy eq_refl) as (t0 & l0 & -> & phi & E & Et) end. cbn [bind].
  match goal with |- context [solve_station_inverse npi quarter ?rt true ?r ?c ?cl ?cd ?al ?af ?Vx ?Vy] =>
    destruct (S rt r c cl cd al af Vx Vy eq_refl) as (t1 & l1 & -> & _) end. cbn [bind map snd fst].
  rewrite q_solve in E by exact Hn. apply ok_inj in E. subst phi.
  do 3 eexists. split; [reflexivity|]. cbn [set_call b_theta map fst nth length]. split; [|split; reflexivity].
  rewrite Et. cbn [nsub fl_arith rotor_of rt_pitch]. reps.
Qed.

Lemma q_analysis npi b' p : b' = set_call q_blade (b_theta b') (radians p) -> length (b_theta b') = 2%nat ->
  exists b2 ls2, distributedAeroLoads npi quarter (as_designed b') 1 (30 / PI) p 0 = Ok (b2, ls2) /\ length ls2 = 2%nat.
Proof.
  intros -> Hl. cbn [set_call b_theta] in Hl. destruct (b_theta b') as [|t0 [|t1 [|]]]; try discriminate Hl.
  assert (S : forall rt sc, rt_iterRe rt = 1%nat -> exists l, solve_station npi quarter rt true sc = Ok l).
  { intros rt sc Hi. unfold solve_station. rewrite Hi. destruct (quarter_solves npi (errf rt sc 0)) as (phi & ->). cbn [bind].
    destruct (loads_ok rt phi true sc 0 Hi) as (l0 & ->). cbn [bind]. apply nan_guard_ok. }
  unfold distributedAeroLoads. change (shapes_ok _) with true. cbn [negb]. cbv zeta.
  change (seq 0 _) with [0%nat; 1%nat].
  cbn [mapM]. unfold station_i. rewrite q_omega. cbv zeta.
  cbn [as_designed set_inverse set_call q_blade b_r b_chord b_theta b_af b_cl b_cd b_alpha b_inverse pyget nth_error bind negb].
  match goal with |- context [solve_station npi quarter ?rt true ?sc] => destruct (S rt sc eq_refl) as (l0 & ->) end. cbn [bind].
  match goal with |- context [solve_station npi quarter ?rt true ?sc] => destruct (S rt sc eq_refl) as (l1 & ->) end. cbn [bind].
  do 2 eexists. split; [reflexivity|reflexivity].
Qed.
