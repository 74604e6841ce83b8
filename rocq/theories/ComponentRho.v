(** Air density: with Reynolds-independent airfoils all loads are proportional to it, but CCBladeEvaluate reports a zero
    partial (C60). *)
From Coquelicot Require Import Coquelicot.
From Coq Require Import Reals Bool Arith List Lra Lia FunctionalExtensionality.
From Verif Require Import Prelim Num Bem BemGeomProofs Interp InterpSpec DiffSpec BemDiff DeriveLib Blade StationProofs BladeDiff BladeDiffSpec
  StationDvProofs BladeDvProofs EvalDvProofs Component ComponentSpec ComponentProofs.
Import ListNotations.
Open Scope R_scope.

Definition rt_with_rho (rt : rotor R) (rho : R) : rotor R :=
  mkRotor (rt_Rhub rt) (rt_Rtip rt) (rt_B rt) rho (rt_mu rt) (rt_opts rt) (rt_iterRe rt) (rt_pitch rt).
Definition fx_with_rho (fx : fixed) (rho : R) : fixed :=
  mkFixed (f_n fx) (f_af fx) (f_afd fx) (f_B fx) rho (f_mu fx) (f_opts fx) (f_iterRe fx) (f_nSector fx).

Lemma wind_rho (phi a ap Vx Vy pitch chord theta rho rho' mu : R) :
  forall al W Re, relativeWind phi a ap Vx Vy pitch chord theta rho mu = (al, W, Re) ->
  exists Re', relativeWind phi a ap Vx Vy pitch chord theta rho' mu = (al, W, Re').
Proof.
  intros al W Re H. assert (E : fst (relativeWind phi a ap Vx Vy pitch chord theta rho' mu) = (al, W)) by (transitivity (fst (relativeWind phi a ap Vx Vy pitch chord theta rho mu)); [reflexivity|rewrite H; reflexivity]).
  destruct (relativeWind phi a ap Vx Vy pitch chord theta rho' mu) as [p q]. cbn [fst] in E. subst p. exists q. reflexivity.
Qed.

Lemma pass_rho rt rho sc phi a ap : re_free (s_af sc) -> bem_pass (rt_with_rho rt rho) sc phi a ap = bem_pass rt sc phi a ap.
Proof.
  intros H. unfold bem_pass. cbn [rt_with_rho rt_pitch rt_rho rt_mu rt_opts rt_B rt_Rhub rt_Rtip].
  pose proof (wind_rho phi a ap (s_Vx sc) (s_Vy sc) (rt_pitch rt) (s_chord sc) (s_theta sc) rho (rt_rho rt) (rt_mu rt)) as E.
  destruct (relativeWind _ _ _ _ _ _ _ _ rho _) as [[al W] Re]. destruct (E _ _ _ eq_refl) as [Re' ->]. rewrite (H al Re Re'). reflexivity.
Qed.

Lemma loop_rho rt rho sc phi m : re_free (s_af sc) -> bem_loop (rt_with_rho rt rho) sc phi m = bem_loop rt sc phi m.
Proof.
  intros H. induction m as [|m IH]; cbn [bem_loop]; [apply pass_rho; exact H|]. rewrite IH.
  destruct (bem_loop rt sc phi m) as [[[[fz a] ap] cl] cd]. apply pass_rho; exact H.
Qed.

Lemma errf_rho rt rho sc m : re_free (s_af sc) -> errf (rt_with_rho rt rho) sc m = errf rt sc m.
Proof. intros H. apply functional_extensionality. intros phi. unfold errf. rewrite loop_rho by exact H. reflexivity. Qed.

Lemma loads_rho rt rho phi rot sc l : re_free (s_af sc) -> rt_rho rt = 1 -> loads rt phi rot sc = Ok l ->
  exists l', loads (rt_with_rho rt rho) phi rot sc = Ok l' /\ o_Np l' = rho * o_Np l /\ o_Tp l' = rho * o_Tp l.
Proof.
  intros H H1 E. unfold loads in *. destruct (andb _ _).
  2:{ apply ok_inj in E. subst l. eexists. split; [reflexivity|]. cbn. split; ring. }
  unfold runBEM in *. cbn [rt_iterRe rt_with_rho rt_pitch rt_rho rt_mu] in *. rewrite H1 in E.
  assert (A : forall a ap cl cd, (let '(alpha, W, Re) := relativeWind phi a ap (s_Vx sc) (s_Vy sc) (rt_pitch rt) (s_chord sc) (s_theta sc) 1 (rt_mu rt) in
     let cn := nadd (nmul cl (ncos phi)) (nmul cd (nsin phi)) in let ct := nsub (nmul cl (nsin phi)) (nmul cd (ncos phi)) in
     let q := nmul (nmul (ofR (1 / 2)) 1) (nmul W W) in
     Ok (mkLoad a ap (nmul (nmul cn q) (s_chord sc)) (nmul (nmul ct q) (s_chord sc)) (rad2deg alpha) cl cd cn ct q W Re)) = Ok l ->
     exists l', (let '(alpha, W, Re) := relativeWind phi a ap (s_Vx sc) (s_Vy sc) (rt_pitch rt) (s_chord sc) (s_theta sc) rho (rt_mu rt) in
     let cn := nadd (nmul cl (ncos phi)) (nmul cd (nsin phi)) in let ct := nsub (nmul cl (nsin phi)) (nmul cd (ncos phi)) in
     let q := nmul (nmul (ofR (1 / 2)) rho) (nmul W W) in
     Ok (mkLoad a ap (nmul (nmul cn q) (s_chord sc)) (nmul (nmul ct q) (s_chord sc)) (rad2deg alpha) cl cd cn ct q W Re)) = Ok l' /\
     o_Np l' = rho * o_Np l /\ o_Tp l' = rho * o_Tp l).
  { intros a ap cl cd K. pose proof (wind_rho phi a ap (s_Vx sc) (s_Vy sc) (rt_pitch rt) (s_chord sc) (s_theta sc) 1 rho (rt_mu rt)) as W.
    destruct (relativeWind _ _ _ _ _ _ _ _ 1 _) as [[al W1] Re]. destruct (W _ _ _ eq_refl) as [Re' ->]. cbv zeta in K. apply ok_inj in K. subst l. eexists. split; [reflexivity|].
    cbn [o_Np o_Tp nmul nadd nsub ofR R_arith]. split; ring. }
  destruct rot.
  - destruct (rt_iterRe rt) as [|m]; [discriminate E|]. rewrite (loop_rho rt rho sc phi m H).
    cbn [bind] in *. destruct (bem_loop rt sc phi m) as [[[[fz a] ap] cl] cd]. cbn [bind] in *. apply A. exact E.
  - pose proof (wind_rho phi (ofR 0) (ofR 0) (s_Vx sc) (s_Vy sc) (rt_pitch rt) (s_chord sc) (s_theta sc) 1 rho (rt_mu rt)) as W.
    destruct (relativeWind phi (ofR 0) (ofR 0) _ _ _ _ _ 1 _) as [[al W1] Re] eqn:E1.
    destruct (W _ _ _ eq_refl) as [Re' ->]. rewrite (H al Re' Re). destruct (s_af sc al Re) as [cl cd]. cbn [bind] in *. 
    apply A. exact E.
Qed.

Lemma station_rho npi bq fx D i rho l : re_free (f_af fx i) -> station_result npi bq (fx_with_rho fx 1) D i = Ok l ->
  exists l', station_result npi bq (fx_with_rho fx rho) D i = Ok l' /\ o_Np l' = rho * o_Np l /\ o_Tp l' = rho * o_Tp l.
Proof.
  intros H E. set (f1 := fx_with_rho fx 1) in *. unfold station_result in *.
  change (rotor_d (fx_with_rho fx rho) D) with (rt_with_rho (rotor_d f1 D) rho). change (sect_d (fx_with_rho fx rho) D i) with (sect_d f1 D i).
  unfold solve_station in *. change (rt_iterRe (rt_with_rho (rotor_d f1 D) rho)) with (rt_iterRe (rotor_d f1 D)).
  assert (F : forall m, errf (rt_with_rho (rotor_d f1 D) rho) (sect_d f1 D i) m = errf (rotor_d f1 D) (sect_d f1 D i) m) by (intros; apply errf_rho; exact H).
  assert (P : forall phi, (if rotating_d D then match rt_iterRe (rotor_d f1 D) with O => Raise NameError | S m => solve npi bq (errf (rotor_d f1 D) (sect_d f1 D i) m) end
      else Ok (ofR (npi / 2))) = Ok phi ->
     (if rotating_d D then match rt_iterRe (rotor_d f1 D) with O => Raise NameError | S m => solve npi bq (errf (rt_with_rho (rotor_d f1 D) rho) (sect_d f1 D i) m) end
      else Ok (ofR (npi / 2))) = Ok phi).
  { intros phi. destruct (rotating_d D); [|auto]. destruct (rt_iterRe (rotor_d f1 D)); [auto|]. rewrite F. auto. }
  apply bind_ok in E. destruct E as (phi & E1 & E). rewrite (P phi E1). cbn [bind]. apply bind_ok in E. destruct E as (l0 & E2 & E3).
  rewrite nan_guard_R in E3. apply ok_inj in E3. subst l0.
  destruct (loads_rho (rotor_d f1 D) rho phi (rotating_d D) (sect_d f1 D i) l H eq_refl E2) as (l' & E4 & E5). rewrite E4. cbn [bind]. exists l'. split; [apply nan_guard_R|exact E5].
Qed.

(** The totals. *)
Lemma thrust_scaled n c Np Tp Np' Tp' r pc ps precone Rhub Rtip ct st :
  (forall i, (i < n)%nat -> Np' i = c * Np i) -> (forall i, (i < n)%nat -> Tp' i = c * Tp i) ->
  thrustTorque n Np' Tp' r pc ps precone Rhub Rtip ct st =
  (let '(T, Y, Z, Q, M) := thrustTorque n Np Tp r pc ps precone Rhub Rtip ct st in (c * T, c * Y, c * Z, c * Q, c * M)).
Proof.
  intros HN HT. destruct (thrustTorque n Np Tp r pc ps precone Rhub Rtip ct st) as [[[[T Y] Z] Q] M] eqn:E.
  pose proof (loads_linear n Np Tp Np Tp c 0 _ _ _ _ _ _ _ _ _ _ _ _ _ _ _ _ _ _ E E) as L.
  rewrite (thrustTorque_loads_ext n Np' (fun i => c * Np i + 0 * Np i) Tp' (fun i => c * Tp i + 0 * Tp i)).
  - rewrite L. repeat apply (f_equal2 pair); ring.
  - intros i Hi. rewrite HN by assumption. ring.
  - intros i Hi. rewrite HT by assumption. ring.
Qed.

Lemma totals_rho npi bq fx D rho : (forall k, re_free (f_af fx k)) ->
  (forall az k, In az (azimuths (f_nSector fx)) -> (k < f_n fx)%nat -> succeeds (station_result npi bq (fx_with_rho fx 1) (sector_design D az) k)) ->
  let t := rotor_totals npi bq (fx_with_rho fx 1) D in let u := rotor_totals npi bq (fx_with_rho fx rho) D in
  t_T u = rho * t_T t /\ t_Y u = rho * t_Y t /\ t_Z u = rho * t_Z t /\ t_Q u = rho * t_Q t /\ t_My u = rho * t_My t /\
  t_Mz u = rho * t_Mz t /\ t_Mb u = rho * t_Mb t.
Proof.
  intros Hf Hs t u. unfold t, u, rotor_totals. cbn [f_nSector f_B fx_with_rho t_T t_Y t_Z t_Q t_My t_Mz t_Mb].
  assert (K : forall az, In az (azimuths (f_nSector fx)) -> let p := blade_out npi bq (fx_with_rho fx 1) D az in
     blade_out npi bq (fx_with_rho fx rho) D az = (rho * oT p, rho * oY p, rho * oZ p, rho * oQ p, rho * oM p)).
  { intros az Haz p. unfold p, blade_out. cbn [f_n fx_with_rho].
    rewrite (thrust_scaled (f_n fx) rho (blade_Np npi bq (fx_with_rho fx 1) (sector_design D az)) (blade_Tp npi bq (fx_with_rho fx 1) (sector_design D az))).
    - destruct (thrustTorque _ _ _ _ _ _ _ _ _ _ _) as [[[[T Y] Z] Q] M]. reflexivity.
    - intros k Hk. destruct (Hs az k Haz Hk) as [l E]. destruct (station_rho npi bq fx (sector_design D az) k rho l (Hf k) E) as (l' & E' & A & _).
      unfold blade_Np. rewrite E, E'. exact A.
    - intros k Hk. destruct (Hs az k Haz Hk) as [l E]. destruct (station_rho npi bq fx (sector_design D az) k rho l (Hf k) E) as (l' & E' & _ & A).
      unfold blade_Tp. rewrite E, E'. exact A. }
  assert (L : forall (f : R * R * R * R * R -> R -> R) , (forall T Y Z Q M az, f (rho * T, rho * Y, rho * Z, rho * Q, rho * M) az = rho * f (T, Y, Z, Q, M) az) ->
     list_sum (fun az => f (blade_out npi bq (fx_with_rho fx rho) D az) az) (azimuths (f_nSector fx)) =
     rho * list_sum (fun az => f (blade_out npi bq (fx_with_rho fx 1) D az) az) (azimuths (f_nSector fx))).
  { intros f Hl. revert K. generalize (azimuths (f_nSector fx)) as azs. induction azs as [|az azs IH]; intros K; cbn [list_sum fold_right]; [ring|].
    unfold list_sum in IH. rewrite IH by (intros; apply K; right; assumption). rewrite (K az (or_introl eq_refl)).
    rewrite Hl. unfold oT, oY, oZ, oQ, oM. destruct (blade_out npi bq (fx_with_rho fx 1) D az) as [[[[T Y] Z] Q] M]. cbn [fst snd]. ring. }
  pose proof (L (fun p _ => oT p) ltac:(intros; reflexivity)) as L1.
  pose proof (L (fun p az => oY p * cos az - oZ p * sin az) ltac:(intros; unfold oY, oZ; cbn [fst snd]; ring)) as L2.
  pose proof (L (fun p az => oZ p * cos az + oY p * sin az) ltac:(intros; unfold oY, oZ; cbn [fst snd]; ring)) as L3.
  pose proof (L (fun p _ => oQ p) ltac:(intros; reflexivity)) as L4.
  pose proof (L (fun p az => oM p * cos az) ltac:(intros; unfold oM; cbn [fst snd]; ring)) as L5.
  pose proof (L (fun p az => oM p * sin az) ltac:(intros; unfold oM; cbn [fst snd]; ring)) as L6.
  pose proof (L (fun p _ => oM p) ltac:(intros; reflexivity)) as L7.
  cbv beta in *. rewrite L1, L2, L3, L4, L5, L6, L7. unfold Rdiv. repeat match goal with |- _ /\ _ => split end; ring.
Qed.

(** compute at any other density *)
Lemma sectors_stations npi bq fx D azs : forall u t, sectors_val npi bq fx D azs u = Ok t ->
  forall az k, In az azs -> (k < f_n fx)%nat -> succeeds (station_result npi bq fx (sector_design D az) k).
Proof.
  induction azs as [|a azs IH]; intros u t H az k Haz Hk; [contradiction Haz|]. cbn [sectors_val] in H. fold (sector_design D a) in H.
  destruct (loads_list npi bq fx (sector_design D a)) as [ls|] eqn:EL; [|discriminate H]. cbn [bind] in H. destruct Haz as [<-|Haz].
  - eexists. exact (nth_seq_mapM _ _ _ zero_load k Hk EL).
  - eapply IH; eassumption.
Qed.

Lemma stations_sectors npi bq fx D azs : (forall az k, In az azs -> (k < f_n fx)%nat -> succeeds (station_result npi bq fx (sector_design D az) k)) ->
  forall u, exists t, sectors_val npi bq fx D azs u = Ok t.
Proof.
  induction azs as [|a azs IH]; intros H u; [eexists; reflexivity|]. cbn [sectors_val]. fold (sector_design D a).
  assert (M : exists ls, loads_list npi bq fx (sector_design D a) = Ok ls).
  { unfold loads_list. assert (G : forall l, (forall k, In k l -> (k < f_n fx)%nat) -> exists ls, mapM (fun i => solve_station npi bq (rotor_d fx (sector_design D a))
      (negb (reqb (x_Omega (sector_design D a)) 0)) (sect_d fx (sector_design D a) i)) l = Ok ls).
    { induction l as [|k l IHl]; intros Hl; [eexists; reflexivity|]. cbn [mapM]. destruct (H a k (or_introl eq_refl) (Hl k (or_introl eq_refl))) as [y Ey].
      unfold station_result, rotating_d in Ey. rewrite Ey. cbn [bind]. destruct IHl as [ls E]; [intros; apply Hl; right; assumption|]. rewrite E. eexists. reflexivity. }
    apply G. intros k Hk. apply in_seq in Hk. lia. }
  destruct M as [ls E]. rewrite E. cbn [bind]. apply IH. intros; apply H; [right|]; assumption.
Qed.

Lemma compute_other_rho npi bq i rho o : clear_ends (ri_args (eval_rotor i)) -> (forall k, re_free (ei_af i k)) -> ei_rho i <> 0 ->
  eval_compute npi bq i = Ok o -> exists o', eval_compute npi bq (set_rho i rho) = Ok o' /\
    (forall k, (k < 3)%nat -> eo_Fhub o' k = rho * (eo_Fhub o k / ei_rho i) /\ eo_Mhub o' k = rho * (eo_Mhub o k / ei_rho i)) /\
    eo_P o' = rho * (eo_P o / ei_rho i) /\ eo_Mb o' = rho * (eo_Mb o / ei_rho i).
Proof.
  intros Hc Hf H0 E.
  set (fx := eval_fixed i). set (D := eval_design i).
  assert (S : forall az k, In az (azimuths (f_nSector fx)) -> (k < f_n fx)%nat -> succeeds (station_result npi bq fx (sector_design D az) k)).
  { unfold eval_compute in E. rewrite (object_given _ Hc) in E. cbn [bind fst snd] in E. fold (eval_fixed i) (eval_design i) in E. fold fx D in E.
    destruct (sectors_val _ _ _ _ _ _) as [t|] eqn:ES; [|discriminate E]. eapply sectors_stations. exact ES. }
  pose proof (eval_inv npi bq i o E Hc) as Eo. fold fx D in Eo.
  assert (EF : fx = fx_with_rho fx (ei_rho i)) by reflexivity.
  set (f1 := fx_with_rho fx 1).
  (* stations at density 1 *)
  assert (S1 : forall az k, In az (azimuths (f_nSector fx)) -> (k < f_n fx)%nat -> succeeds (station_result npi bq (fx_with_rho fx 1) (sector_design D az) k)).
  { intros az k Haz Hk. destruct (S az k Haz Hk) as [l El]. clear - El Hf.
    unfold station_result, solve_station in *. set (D0 := sector_design D az) in *. set (sc := sect_d fx D0 k) in *.
    change (rotor_d (fx_with_rho fx 1) D0) with (rt_with_rho (rotor_d fx D0) 1). change (sect_d (fx_with_rho fx 1) D0 k) with sc.
    change (rt_iterRe (rt_with_rho (rotor_d fx D0) 1)) with (rt_iterRe (rotor_d fx D0)).
    apply bind_ok in El. destruct El as (phi & E1 & E2).
    assert (P : (if rotating_d D0 then match rt_iterRe (rotor_d fx D0) with O => Raise NameError | S m => solve npi bq (errf (rt_with_rho (rotor_d fx D0) 1) sc m) end
      else Ok (ofR (npi / 2))) = Ok phi).
    { destruct (rotating_d D0); [|exact E1]. destruct (rt_iterRe (rotor_d fx D0)); [exact E1|]. rewrite errf_rho by apply Hf. exact E1. }
    rewrite P. cbn [bind]. apply bind_ok in E2. destruct E2 as (l0 & E2 & _).
    assert (G : exists l1, loads (rt_with_rho (rotor_d fx D0) 1) phi (rotating_d D0) sc = Ok l1).
    { unfold loads in *. destruct (andb _ _); [|eexists; reflexivity]. destruct (rotating_d D0).
      - unfold runBEM in *. cbn [rt_iterRe rt_with_rho] in *. destruct (rt_iterRe (rotor_d fx D0)); [discriminate E2|]. clear E2. cbn [bind].
        destruct (bem_loop _ _ _ _) as [[[[? ?] ?] ?] ?]. cbn [bind].
        destruct (@relativeWind R _ _ _ _ _ _ _ _ _ _ _) as [[? ?] ?]. eexists; reflexivity.
      - clear E2. destruct (@relativeWind R _ _ _ _ _ _ _ _ _ _ _) as [[? ?] ?]. destruct (s_af sc _ _) as [? ?]. cbn [bind].
        try destruct (@relativeWind R _ _ _ _ _ _ _ _ _ _ _) as [[? ?] ?]. eexists; reflexivity. }
    destruct G as [l1 G]. rewrite G. cbn [bind]. rewrite nan_guard_R. eexists. reflexivity. }
  assert (S2 : forall az k, In az (azimuths (f_nSector fx)) -> (k < f_n fx)%nat -> succeeds (station_result npi bq (fx_with_rho fx rho) (sector_design D az) k)).
  { intros az k Haz Hk. destruct (S1 az k Haz Hk) as [l El]. destruct (station_rho npi bq fx _ k rho l (Hf k) El) as (l' & E' & _). eexists. exact E'. }
  destruct (stations_sectors npi bq (fx_with_rho fx rho) D (azimuths (f_nSector fx)) S2 tot0) as [t Et].
  pose proof (sectors_val_totals npi bq (fx_with_rho fx rho) D t Et) as Tt.
  destruct (totals_rho npi bq fx D rho Hf S1) as (A1 & A2 & A3 & A4 & A5 & A6 & A7).
  destruct (totals_rho npi bq fx D (ei_rho i) Hf S1) as (B1 & B2 & B3 & B4 & B5 & B6 & B7). rewrite <- EF in *.
  exists (eval_finish (fx_with_rho fx rho) D t). split.
  - unfold eval_compute. rewrite (object_given (eval_rotor (set_rho i rho)) Hc). cbn [bind fst snd].
    change (given_fixed (eval_rotor (set_rho i rho))) with (fx_with_rho fx rho). change (given_design (eval_rotor (set_rho i rho))) with D.
    change (f_nSector (fx_with_rho fx rho)) with (f_nSector fx). rewrite Et. reflexivity.
  - rewrite Eo, Tt. cbn [eo_Fhub eo_Mhub eo_P eo_Mb eval_finish]. rewrite A1, A2, A3, A4, A5, A6, A7, B1, B2, B3, B4, B5, B6, B7.
    split; [|split; field; assumption]. intros k Hk. destruct k as [|[|[|k]]]; [| | |lia]; cbn [vec3 nth]; split; field; assumption.
Qed.

(** The derivative with respect to density, and what is reported. *)
Lemma rho_partials : forall npi bq i o J, clear_ends (ri_args (eval_rotor i)) -> (forall k, re_free (ei_af i k)) -> ei_rho i <> 0 ->
  eval_compute npi bq i = Ok o -> eval_partials npi bq i = Ok J ->
  let d f := is_derive (fun rho => out f (eval_compute npi bq (set_rho i rho))) (ei_rho i) (f o / ei_rho i) in
  d eo_P /\ K_rho (K_P J) = 0 /\ d eo_Mb /\ K_rho (K_Mb J) = 0 /\
  forall k, (k < 3)%nat -> d (fun o => eo_Fhub o k) /\ K_rho (K_Fhub J k) = 0 /\ d (fun o => eo_Mhub o k) /\ K_rho (K_Mhub J k) = 0.
Proof.
  intros npi bq i o J Hc Hf H0 E EJ d. unfold eval_partials in EJ.
  destruct (object (eval_rotor i)) as [ob|]; [|discriminate EJ]. cbn [bind] in EJ.
  destruct (evaluate_dv npi bq (fst ob) (snd ob)) as [Ev|]; [|discriminate EJ]. cbn [bind] in EJ. apply ok_inj in EJ. subst J.
  assert (L : forall f : eval_out -> R, (forall rho o', eval_compute npi bq (set_rho i rho) = Ok o' -> f o' = rho * (f o / ei_rho i)) -> d f).
  { intros f Hl. unfold d. apply (is_derive_ext (fun rho => rho * (f o / ei_rho i))).
    - intros rho. destruct (compute_other_rho npi bq i rho o Hc Hf H0 E) as (o' & E' & _). rewrite E'. cbn [out]. symmetry. apply Hl. exact E'.
    - der. ring. }
  assert (X : forall rho o', eval_compute npi bq (set_rho i rho) = Ok o' ->
    (forall k, (k < 3)%nat -> eo_Fhub o' k = rho * (eo_Fhub o k / ei_rho i) /\ eo_Mhub o' k = rho * (eo_Mhub o k / ei_rho i)) /\
    eo_P o' = rho * (eo_P o / ei_rho i) /\ eo_Mb o' = rho * (eo_Mb o / ei_rho i)).
  { intros rho o' E'. destruct (compute_other_rho npi bq i rho o Hc Hf H0 E) as (o2 & E2 & K). rewrite E' in E2. apply ok_inj in E2. subst o2. exact K. }
  split; [apply L; intros rho o' E'; exact (proj1 (proj2 (X rho o' E')))|]. split; [reflexivity|].
  split; [apply L; intros rho o' E'; exact (proj2 (proj2 (X rho o' E')))|]. split; [reflexivity|].
  intros k Hk. split; [apply (L (fun o => eo_Fhub o k)); intros rho o' E'; exact (proj1 (proj1 (X rho o' E') k Hk))|].
  split; [destruct k as [|[|[|k]]]; [| | |lia]; reflexivity|].
  split; [apply (L (fun o => eo_Mhub o k)); intros rho o' E'; exact (proj2 (proj1 (X rho o' E') k Hk))|].
  destruct k as [|[|[|k]]]; [| | |lia]; reflexivity.
Qed.
