(** Proofs about CCBladeGeometry, CCBladeLoads and CCBladeEvaluate. *)
From Coquelicot Require Import Coquelicot.
From Coq Require Import Reals Bool Arith List Lra Lia.
From Verif Require Import Prelim Num Bem Interp InterpSpec DiffSpec BemDiff DeriveLib Blade BladeSpec StationProofs InterpProofs ConstructProofs
  BladeDiff BladeDiffSpec StationDvProofs BladeDvProofs EvalDvProofs Component ComponentSpec.
Import ListNotations.
Open Scope R_scope.

(** ** Geometry *)
Lemma pylast_ok l x : pylast l = Ok x -> l <> [] /\ x = nth (length l - 1) l 0.
Proof.
  destruct l as [|a l]; [discriminate|]. unfold pylast. intros H. apply ok_inj in H. split; [discriminate|].
  rewrite <- H. apply last_nth. discriminate.
Qed.

Lemma pylast_some l : l <> [] -> pylast l = Ok (nth (length l - 1) l 0).
Proof. intros H. rewrite <- last_nth by assumption. destruct l; [congruence|reflexivity]. Qed.

Lemma geometry_values : forall i, gi_precurve i <> [] -> gi_presweep i <> [] ->
  let pc := nth (length (gi_precurve i) - 1) (gi_precurve i) 0 in
  let R := gi_Rtip i * cos (radians (gi_precone i)) + pc * sin (radians (gi_precone i)) in
  geometry_compute i = Ok (mkGeomOut R (2 * R) pc (nth (length (gi_presweep i) - 1) (gi_presweep i) 0)).
Proof.
  intros i H1 H2 pc R. unfold geometry_compute. rewrite (pylast_some _ H1), (pylast_some _ H2). cbn [bind].
  fold pc. unfold cosd, sind. fold R. rewrite (Rmult_comm R 2). reflexivity.
Qed.

Lemma last_col_inner n v g : (1 <= n)%nat -> inner n (last_col n v) g = v * g (n - 1)%nat.
Proof.
  intros H. rewrite (inner_single n (last_col n v) g (n - 1)).
  - unfold last_col. rewrite Nat.eqb_refl. reflexivity.
  - lia.
  - intros k Hk Hne. unfold last_col. rewrite (proj2 (Nat.eqb_neq _ _) Hne). ring.
Qed.
Lemma none_inner n g : inner n (fun _ => 0) g = 0.
Proof. unfold inner. induction n as [|n IH]; cbn; [reflexivity|]. rewrite IH. ring. Qed.

Lemma geometry_rates : forall I t vR vc vpc vps J, geom_curve I t vR vc vpc vps -> geometry_partials (I t) = Ok J ->
  let n := length (gi_precurve (I t)) in
  let rate w := geom_rate n w vR vc vpc vps in
  is_derive (fun s => out go_R (geometry_compute (I s))) t (rate (gj_R J)) /\
  is_derive (fun s => out go_diameter (geometry_compute (I s))) t (rate (gj_diameter J)) /\
  is_derive (fun s => out go_precurveTip (geometry_compute (I s))) t (rate (gj_precurveTip J)) /\
  is_derive (fun s => out go_presweepTip (geometry_compute (I s))) t (rate (gj_presweepTip J)).
Proof.
  intros I t vR vc vpc vps J (HL & HR & Hc & Hpc & Hps) E n rate. unfold geometry_partials in E.
  destruct (pylast _) as [pc|] eqn:EP; [|discriminate E]. cbn [bind] in E. apply ok_inj in E.
  destruct (pylast_ok _ _ EP) as [Hne Hlast].
  assert (Hn : (1 <= n)%nat) by (unfold n; destruct (gi_precurve (I t)); [congruence|cbn; lia]).
  assert (Hn1 : (n - 1 < n)%nat) by lia.
  assert (NE : forall s, geometry_compute (I s) = Ok (let pc := nth (n - 1) (gi_precurve (I s)) 0 in
     let R := gi_Rtip (I s) * cos (radians (gi_precone (I s))) + pc * sin (radians (gi_precone (I s))) in
     mkGeomOut R (2 * R) pc (nth (n - 1) (gi_presweep (I s)) 0))).
  { intros s. destruct (HL s) as [L1 L2]. fold n in L1, L2.
    pose proof (geometry_values (I s)) as V. rewrite L1, L2 in V. apply V; intros X; rewrite X in *; cbn in *; lia. }
  specialize (Hpc _ Hn1). specialize (Hps _ Hn1).
  assert (Hr : is_derive (fun s => radians (gi_precone (I s))) t (radians vc)) by (apply d_radians; exact Hc).
  assert (HS : is_derive (fun s => sin (radians (gi_precone (I s)))) t (cos (radians (gi_precone (I t))) * radians vc)).
  { pose proof (is_derive_sin (radians (gi_precone (I t)))). der. ring. }
  assert (HC : is_derive (fun s => cos (radians (gi_precone (I s)))) t (- sin (radians (gi_precone (I t))) * radians vc)).
  { pose proof (is_derive_cos (radians (gi_precone (I t)))). der. ring. }
  subst J. unfold rate, geom_rate. cbn [gj_R gj_diameter gj_precurveTip gj_presweepTip gr_Rtip gr_precone gr_precurve gr_presweep].
  fold n. rewrite !none_inner, !last_col_inner by assumption. fold n in Hlast. unfold cosd, sind.
  repeat match goal with |- _ /\ _ => split end.
  - apply (is_derive_ext (fun s => gi_Rtip (I s) * cos (radians (gi_precone (I s)))
      + nth (n - 1) (gi_precurve (I s)) 0 * sin (radians (gi_precone (I s))))); [intros s; rewrite NE; reflexivity|].
    der. rewrite Hlast. unfold radians. field.
  - apply (is_derive_ext (fun s => 2 * (gi_Rtip (I s) * cos (radians (gi_precone (I s)))
      + nth (n - 1) (gi_precurve (I s)) 0 * sin (radians (gi_precone (I s)))))); [intros s; rewrite NE; reflexivity|].
    der. rewrite Hlast. unfold radians. field.
  - apply (is_derive_ext (fun s => nth (n - 1) (gi_precurve (I s)) 0)); [intros s; rewrite NE; reflexivity|]. der. ring.
  - apply (is_derive_ext (fun s => nth (n - 1) (gi_presweep (I s)) 0)); [intros s; rewrite NE; reflexivity|]. der. ring.
Qed.

Lemma geometry_radius : forall i o g b l, geometry_compute i = Ok o -> construct g = Ok b ->
  g_Rtip g = gi_Rtip i -> g_precone g = gi_precone i -> g_precurve g = Some l -> g_precurveTip g = go_precurveTip o ->
  b_rotorR b = go_R o.
Proof.
  intros i o g b l E1 E2 H1 H2 H3 H4. unfold geometry_compute in E1.
  destruct (pylast (gi_precurve i)) as [pc|]; [|discriminate E1]. destruct (pylast (gi_presweep i)) as [ps|]; [|discriminate E1].
  cbn [bind] in E1. apply ok_inj in E1. subst o. cbn [go_R go_precurveTip] in *.
  unfold construct in E2. rewrite H3 in E2. cbv zeta in E2. destruct (Nat.ltb _ 2); [discriminate E2|].
  destruct (curve_error _ _ _ _ _); [discriminate E2|]. apply ok_inj in E2. rewrite <- E2. cbn [b_rotorR]. rewrite H1, H2, H4. reflexivity.
Qed.

(** ** The object *)
Lemma set_last_same l : l <> [] -> set_last (last l 0) l = l.
Proof. intros H. destruct l as [|a l]; [congruence|]. unfold set_last. symmetry. apply app_removelast_last. discriminate. Qed.

Lemma last_zeros {X} (r : list X) : last (map (fun _ => 0) r) 0 = 0.
Proof. induction r as [|a r IH]; [reflexivity|]. cbn [map]. destruct r; [reflexivity|]. exact IH. Qed.

Lemma clear_curve g c tip x : increasing (g_r g) -> (2 <= length (g_r g))%nat -> clear_tip (g_r g) c tip ->
  (if reqb (tip_of c tip) (last (curve_of (g_r g) c) 0)
   then set_last (interp x (r_nd (g_r g)) (curve_of (g_r g) c)) (curve_of (g_r g) c) else curve_of (g_r g) c) = curve_of (g_r g) c.
Proof.
  intros HI HL [H1 H2]. destruct (reqb (tip_of c tip) _) eqn:E; [|reflexivity]. apply reqb_true in E.
  destruct H2 as [H2|H2]; [congruence|]. rewrite H2. rewrite (interp_zeros g HI HL).
  rewrite <- (last_zeros (g_r g)) at 1. apply set_last_same. destruct (g_r g); [cbn in HL; lia|discriminate].
Qed.

Lemma reqb_radians x : reqb (radians x) 0 = reqb x 0.
Proof.
  pose proof (radians_zero x) as H. destruct (reqb x 0) eqn:E.
  - apply reqb_true. apply reqb_true in E. tauto.
  - apply reqb_false. apply reqb_false in E. tauto.
Qed.

Lemma object_given : forall i, clear_ends (ri_args i) -> object i = Ok (given_fixed i, given_design i).
Proof.
  intros i (HL & HI & H1 & H2 & H3 & H4). unfold object, construct. set (g := ri_args i) in *.
  replace (Nat.ltb (length (g_r g)) 2) with false by (symmetry; apply Nat.ltb_ge; assumption).
  fold (curve_of (g_r g) (g_precurve g)) (curve_of (g_r g) (g_presweep g)). cbv zeta.
  fold (tip_of (g_precurve g) (g_precurveTip g)) (tip_of (g_presweep g) (g_presweepTip g)).
  rewrite curve_error_same; [|lia|exact (proj1 H3)|exact (proj1 H4)].
  rewrite (clear_curve g (g_precurve g) (g_precurveTip g) _ HI HL H3), (clear_curve g (g_presweep g) (g_presweepTip g) _ HI HL H4).
  replace (reqb (g_Rhub g) (hd 0 (g_r g))) with false by (symmetry; apply reqb_false; congruence).
  replace (reqb (g_Rtip g) (last (g_r g) 0)) with false by (symmetry; apply reqb_false; congruence).
  cbn [bind]. rewrite !reqb_radians. reflexivity.
Qed.

(** ** Loads *)
Lemma nth_seq_mapM {Y} (f : nat -> res Y) n ys (dy : Y) i : (i < n)%nat -> mapM f (seq 0 n) = Ok ys -> f i = Ok (nth i ys dy).
Proof.
  intros Hi H. pose proof (mapM_nth f (seq 0 n) ys 0%nat dy H i) as K. rewrite seq_length in K. specialize (K Hi).
  rewrite seq_nth in K by assumption. exact K.
Qed.

Lemma station_dv_value npi bq fx D i l dN dT dR : station_dv npi bq fx D i = Ok (l, dN, dT, dR) -> station_result npi bq fx D i = Ok l.
Proof.
  unfold station_dv, station_result, solve_station. fold (rotating_d D). intros H.
  assert (E : forall phi, loads_dv (rotor_d fx D) phi (rotating_d D) (sect_d fx D i) (f_afd fx i) = Ok (l, dN, dT, dR) ->
     bind (loads (rotor_d fx D) phi (rotating_d D) (sect_d fx D i)) (fun l => nan_guard (rotating_d D) l) = Ok l).
  { intros phi X. rewrite (loads_dv_l _ _ _ _ _ _ _ _ _ X). cbn [bind]. apply nan_guard_R. }
  destruct (rotating_d D) eqn:ER.
  - destruct (rt_iterRe (rotor_d fx D)); [discriminate H|]. destruct (solve _ _ _) as [phi|e]; [|discriminate H]. cbn [bind] in *.
    apply E. exact H.
  - cbn [bind] in *. apply E. exact H.
Qed.

Lemma distributed_values npi bq fx D Np Tp dNp dTp : distributed_dv npi bq fx D = Ok (Np, Tp, dNp, dTp) ->
  forall k, (k < f_n fx)%nat -> exists l, station_result npi bq fx D k = Ok l /\ Np k = o_Np l /\ Tp k = o_Tp l.
Proof.
  unfold distributed_dv. destruct (loads_jac npi bq fx D) as [j|e] eqn:E; [|discriminate]. cbn [bind].
  intros H k Hk. destruct (ok4_inj _ _ _ _ _ _ _ _ H) as (<- & <- & _ & _).
  destruct (loads_jac_station npi bq fx D j E) as (l & dN & dT & dR & HS & ->). cbn [j_Np j_Tp].
  exists (l k). split; [|split; reflexivity]. eapply station_dv_value. apply HS. exact Hk.
Qed.

Lemma compute_inv npi bq i o d : loads_compute npi bq i = Ok (o, d) -> exists fx D Np Tp, object (load_rotor i) = Ok (fx, D) /\
  distributed_dv npi bq fx D = Ok (Np, Tp, fst d, snd d) /\ o = mkLoadOut (li_r i) Np (fun j => - Tp j) (fun _ => 0).
Proof.
  unfold loads_compute. destruct (object _) as [[fx D]|e]; [|discriminate]. cbn [bind fst snd].
  destruct (distributed_dv npi bq fx D) as [[[[Np Tp] dNp] dTp]|e] eqn:E; [|discriminate]. cbn [bind]. intros H. apply ok_inj in H.
  exists fx, D, Np, Tp. split; [reflexivity|]. split.
  - apply (f_equal snd) in H. cbn [snd] in H. rewrite <- H. exact E.
  - apply (f_equal fst) in H. cbn [fst] in H. rewrite <- H. reflexivity.
Qed.

Lemma loads_values : forall npi bq i o d, loads_compute npi bq i = Ok (o, d) ->
  lo_r o = li_r i /\ (forall k, lo_Pz o k = 0) /\
  exists fx D, object (load_rotor i) = Ok (fx, D) /\ f_n fx = length (li_r i) /\
    forall k, (k < length (li_r i))%nat -> exists l, station_result npi bq fx D k = Ok l /\ lo_Px o k = o_Np l /\ lo_Py o k = - o_Tp l.
Proof.
  intros npi bq i o d H. destruct (compute_inv npi bq i o d H) as (fx & D & Np & Tp & E1 & E2 & ->).
  cbn [lo_r lo_Px lo_Py lo_Pz]. split; [reflexivity|]. split; [reflexivity|]. exists fx, D. split; [exact E1|].
  assert (Hn : f_n fx = length (li_r i)).
  { unfold object in E1. destruct (construct _) as [b|] eqn:EC; [|discriminate E1]. cbn [bind] in E1. apply ok_inj in E1.
    apply (f_equal fst) in E1. cbn [fst] in E1. rewrite <- E1. cbn [f_n].
    unfold construct in EC. cbv zeta in EC. destruct (Nat.ltb _ 2); [discriminate EC|]. destruct (curve_error _ _ _ _ _); [discriminate EC|].
    apply ok_inj in EC. rewrite <- EC. cbn [b_r]. destruct (reqb _ (last _ _)); rewrite ?set_last_length; destruct (reqb _ (hd _ _));
      rewrite ?set_first_length; reflexivity. }
  split; [exact Hn|]. intros k Hk. rewrite <- Hn in Hk. destruct (distributed_values npi bq fx D _ _ _ _ E2 k Hk) as (l & A & B & C).
  exists l. rewrite B, C. auto.
Qed.

(** History *)
Lemma run_app npi bq h1 h2 : loads_run npi bq (h1 ++ h2) = fold_left (fun st c => fst (loads_step npi bq st c)) h2 (loads_run npi bq h1).
Proof. unfold loads_run. apply fold_left_app. Qed.

Lemma run_idle npi bq h : forall st, (forall j, In (Compute j) h -> ~ succeeds (loads_compute npi bq j)) ->
  fold_left (fun st c => fst (loads_step npi bq st c)) h st = st.
Proof.
  induction h as [|c h IH]; intros st H; [reflexivity|]. cbn [fold_left]. rewrite IH by (intros; apply H; right; assumption).
  destruct c as [j|j]; [|reflexivity]. cbn [loads_step]. specialize (H j (or_introl eq_refl)).
  destruct (loads_compute npi bq j) as [[o d]|e]; [|reflexivity]. exfalso. apply H. eexists. reflexivity.
Qed.

Lemma latest_state npi bq h i o d : latest npi bq h i -> loads_compute npi bq i = Ok (o, d) -> loads_run npi bq h = Some d.
Proof.
  intros (h1 & h2 & -> & _ & Hidle) E. rewrite run_app. cbn [fold_left]. rewrite run_idle by exact Hidle.
  cbn [loads_step]. rewrite E. reflexivity.
Qed.

Lemma partials_none : forall npi bq h i', (forall j, In (Compute j) h -> ~ succeeds (loads_compute npi bq j)) ->
  partials_after npi bq h i' = Raise AttributeError.
Proof. intros npi bq h i' H. unfold partials_after, loads_run. rewrite (run_idle npi bq h None H). reflexivity. Qed.

Lemma partials_latest : forall npi bq h i i' i'', latest npi bq h i ->
  partials_after npi bq h i' = partials_after npi bq [Compute i] i'' /\ succeeds (partials_after npi bq h i').
Proof.
  intros npi bq h i i' i'' H. pose proof H as (h1 & h2 & _ & ((o & d) & E) & _).
  unfold partials_after. rewrite (latest_state npi bq h i o d H E). unfold loads_run. cbn [fold_left loads_step]. rewrite E. cbn [fst snd].
  split; [reflexivity|]. eexists. reflexivity.
Qed.

Lemma history_cases npi bq h : (exists i, latest npi bq h i) \/ (forall j, In (Compute j) h -> ~ succeeds (loads_compute npi bq j)).
Proof.
  induction h as [|c h IH] using rev_ind; [right; intros j []|].
  assert (D : (exists j, c = Compute j /\ succeeds (loads_compute npi bq j)) \/ (forall j, c = Compute j -> ~ succeeds (loads_compute npi bq j))).
  { destruct c as [j|j]; [|right; discriminate]. destruct (loads_compute npi bq j) as [a|e] eqn:E.
    - left. exists j. split; [reflexivity|]. exists a. exact E.
    - right. intros j' Ej (a & Ea). injection Ej; intros <-. congruence. }
  destruct D as [(j & -> & Hj)|Hc].
  - left. exists j, h, []. split; [reflexivity|]. split; [exact Hj|]. intros j' [].
  - destruct IH as [(i & h1 & h2 & -> & Hs & Hi)|Hn].
    + left. exists i, h1, (h2 ++ [c]). split; [rewrite <- app_assoc; reflexivity|]. split; [exact Hs|].
      intros j Hj. apply in_app_or in Hj. destruct Hj as [Hj|[Hj|[]]]; [apply Hi; exact Hj|apply Hc; exact Hj].
    + right. intros j Hj. apply in_app_or in Hj. destruct Hj as [Hj|[Hj|[]]]; [apply Hn; exact Hj|apply Hc; exact Hj].
Qed.

(** The reported partials are derivatives. *)
Lemma loads_partials_rate : forall npi bq h (I : R -> load_in) (t : R) (v : design) i' o d,
  latest npi bq h (I t) -> loads_compute npi bq (I t) = Ok (o, d) ->
  locally t (fun s => clear_ends (ri_args (load_rotor (I s))) /\ load_fixed (I s) = load_fixed (I t) /\
                      succeeds (loads_compute npi bq (I s))) ->
  let n := length (li_r (I t)) in let D s := load_design (I s) in
  design_derive n D t v -> wind_ok (load_fixed (I t)) D t -> radial_ok n (D t) v ->
  (forall k, (k < n)%nat -> station_ok npi bq (load_fixed (I t)) D t k) ->
  exists Jx Jy, partials_after npi bq h i' = Ok (Jx, Jy) /\
    forall k, (k < n)%nat ->
      is_derive (fun s => out (fun o => lo_Px (fst o) k) (loads_compute npi bq (I s))) t (load_J_rate n Jx v k) /\
      (lo_Py o k <> 0 -> is_derive (fun s => out (fun o => lo_Py (fst o) k) (loads_compute npi bq (I s))) t (load_J_rate n Jy v k)).
Proof.
  intros npi bq h I t v i' o d HL E Hloc n D HD Hw Hr Hst.
  assert (Hc : clear_ends (ri_args (load_rotor (I t)))) by (apply locally_singleton in Hloc; tauto).
  set (fx := load_fixed (I t)) in *.
  destruct (compute_inv npi bq (I t) o d E) as (fx0 & D0 & Np & Tp & E1 & E2 & Eo).
  rewrite (object_given _ Hc) in E1. apply ok_inj in E1. assert (F0 := f_equal fst E1). assert (D0' := f_equal snd E1). cbn [fst snd] in F0, D0'.
  subst fx0 D0. clear E1. change (distributed_dv npi bq fx (D t) = Ok (Np, Tp, fst d, snd d)) in E2.
  assert (V : locally t (fun s => forall k, (k < n)%nat ->
      out (fun o => lo_Px (fst o) k) (loads_compute npi bq (I s)) = blade_Np npi bq fx (D s) k /\
      out (fun o => lo_Py (fst o) k) (loads_compute npi bq (I s)) = - blade_Tp npi bq fx (D s) k)).
  { generalize Hloc. apply filter_imp. intros s (Hcs & Hfs & ((os & ds) & Es)) k Hk. rewrite Es. unfold out. cbn [fst].
    destruct (compute_inv npi bq (I s) os ds Es) as (fx1 & D1 & Np1 & Tp1 & E3 & E4 & ->). cbn [lo_Px lo_Py].
    rewrite (object_given _ Hcs) in E3. apply ok_inj in E3. assert (F1 := f_equal fst E3). assert (D1' := f_equal snd E3). cbn [fst snd] in F1, D1'.
    subst fx1 D1. clear E3. change (distributed_dv npi bq (load_fixed (I s)) (D s) = Ok (Np1, Tp1, fst ds, snd ds)) in E4.
    rewrite Hfs in E4. fold fx in E4.
    destruct (distributed_values npi bq fx (D s) _ _ _ _ E4 k Hk) as (l & A & B & C). unfold blade_Np, blade_Tp. rewrite A, B, C. split; reflexivity. }
  assert (PS : forall k, (k < n)%nat -> x_presweep v k = 0).
  { intros k Hk. destruct HD as (_ & _ & _ & _ & HP & _). specialize (HP k Hk).
    assert (Z : is_derive (fun s => x_presweep (D s) k) t 0).
    { apply (is_derive_ext (fun _ => 0)); [|apply d_const]. intros s. unfold D, load_design, given_design, load_rotor, curve_of.
      cbn [x_presweep ri_args g_r g_presweep]. unfold aget. generalize k as m. induction (li_r (I s)) as [|a l IH]; intros [|m]; cbn; auto. }
    rewrite <- (is_derive_unique _ _ _ HP). apply is_derive_unique. exact Z. }
  assert (PI0 : forall f, inner n f (x_presweep v) = 0).
  { intros f. rewrite (inner_ext n f f (x_presweep v) (fun _ => 0)) by (intros; auto using PS).
    clear. induction n as [|m IH]; cbn [inner]; [reflexivity|]. rewrite IH. ring. }
  pose proof HL as HL'. assert (ER : partials_after npi bq h i' = Ok (loads_partials d)).
  { unfold partials_after. rewrite (latest_state npi bq h (I t) o d HL E). reflexivity. }
  destruct d as [dNp dTp]. cbn [fst snd] in E2. eexists. eexists. split; [exact ER|]. intros k Hk.
  destruct (distributed_rate npi bq fx D t v Np Tp dNp dTp ltac:(exact (proj1 Hc)) HD Hw Hr Hst E2 k Hk) as (l & A & B & C & DN & DT).
  split.
  - apply (is_derive_ext_loc (fun s => blade_Np npi bq fx (D s) k)).
    { generalize V. apply filter_imp. intros s Hs. symmetry. apply Hs. exact Hk. }
    match goal with |- is_derive _ _ ?x => replace x with (load_rate (f_n fx) dNp v k); [exact DN|] end.
    change (f_n fx) with n. unfold load_rate, load_J_rate. cbn [J_r J_chord J_theta J_precurve J_Rhub J_Rtip J_hub_height J_precone J_tilt J_yaw J_shearExp J_V_load J_Omega_load J_pitch_load J_azimuth_load].
    rewrite PI0. ring.
  - intros HT. apply (is_derive_ext_loc (fun s => - blade_Tp npi bq fx (D s) k)).
    { generalize V. apply filter_imp. intros s Hs. symmetry. apply Hs. exact Hk. }
    assert (CT : o_ct l <> 0).
    { intros Z. apply HT. rewrite Eo. cbn [lo_Py]. rewrite C.
      enough (o_Tp l = 0) as -> by ring. clear - A Z. unfold station_result, solve_station in A. apply bind_ok in A. destruct A as (phi & _ & A).
      apply bind_ok in A. destruct A as (l0 & A1 & A2). rewrite nan_guard_R in A2. apply ok_inj in A2. subst l0.
      unfold loads in A1. destruct (andb _ _).
      - apply bind_ok in A1. destruct A1 as ((((a & ap) & cl) & cd) & A3 & A4). destruct (relativeWind _ _ _ _ _ _ _ _ _ _) as [[al W] Re] in A4.
        apply ok_inj in A4. rewrite <- A4 in Z |- *. cbn [o_ct o_Tp nmul nsub nadd R_arith] in *. rewrite Z. ring.
      - apply ok_inj in A1. rewrite <- A1. reflexivity. }
    specialize (DT CT).
    match goal with |- is_derive _ _ ?x => replace x with (- load_rate (f_n fx) dTp v k); [apply (is_derive_opp (fun s => blade_Tp npi bq fx (D s) k)); exact DT|] end.
    change (f_n fx) with n. unfold load_rate, load_J_rate. cbn [J_r J_chord J_theta J_precurve J_Rhub J_Rtip J_hub_height J_precone J_tilt J_yaw J_shearExp J_V_load J_Omega_load J_pitch_load J_azimuth_load].
    rewrite PI0.
    assert (NO : forall f g, inner n (fun j => - f j) g = - inner n f g).
    { intros f g. clear. induction n as [|m IH]; cbn [inner]; [ring|]. rewrite IH. ring. }
    rewrite !NO. ring.
Qed.

(** ** Evaluate *)
Lemma totals_ext a b : t_T a = t_T b -> t_Y a = t_Y b -> t_Z a = t_Z b -> t_Q a = t_Q b -> t_My a = t_My b -> t_Mz a = t_Mz b ->
  t_Mb a = t_Mb b -> a = b.
Proof. destruct a, b; cbn; intros; subst; reflexivity. Qed.

Lemma tot_step_loads npi bq fx D az ls u : loads_list npi bq fx (sector_design D az) = Ok ls ->
  tot_step fx D az (fun i => o_Np (nth i ls zero_load)) (fun i => o_Tp (nth i ls zero_load)) u =
  tot_step fx D az (blade_Np npi bq fx (sector_design D az)) (blade_Tp npi bq fx (sector_design D az)) u.
Proof.
  intros H. assert (K : forall i, (i < f_n fx)%nat -> o_Np (nth i ls zero_load) = blade_Np npi bq fx (sector_design D az) i /\
    o_Tp (nth i ls zero_load) = blade_Tp npi bq fx (sector_design D az) i).
  { intros i Hi. pose proof (nth_seq_mapM _ _ _ zero_load i Hi H) as E. unfold blade_Np, blade_Tp, station_result, rotating_d. rewrite E. split; reflexivity. }
  unfold tot_step. rewrite (thrustTorque_loads_ext (f_n fx) _ (blade_Np npi bq fx (sector_design D az)) _ (blade_Tp npi bq fx (sector_design D az)));
    [reflexivity|intros; apply K; assumption|intros; apply K; assumption].
Qed.

Lemma sectors_val_sums npi bq fx D azs : forall u t, sectors_val npi bq fx D azs u = Ok t ->
  let o := blade_out npi bq fx D in let B := INR (f_B fx) in let m := INR (f_nSector fx) in
  t = mkTot (t_T u + B * list_sum (fun az => oT (o az)) azs / m)
        (t_Y u + B * list_sum (fun az => oY (o az) * cos az - oZ (o az) * sin az) azs / m)
        (t_Z u + B * list_sum (fun az => oZ (o az) * cos az + oY (o az) * sin az) azs / m)
        (t_Q u + B * list_sum (fun az => oQ (o az)) azs / m)
        (t_My u + B * list_sum (fun az => oM (o az) * cos az) azs / m)
        (t_Mz u + B * list_sum (fun az => oM (o az) * sin az) azs / m)
        (t_Mb u + list_sum (fun az => oM (o az)) azs / m).
Proof.
  induction azs as [|az azs IH]; intros u t H; cbn [sectors_val] in H; intros o B m.
  - apply ok_inj in H. subst t. cbn [list_sum fold_right]. apply totals_ext; cbn [t_T t_Y t_Z t_Q t_My t_Mz t_Mb]; unfold Rdiv; ring.
  - fold (sector_design D az) in H. destruct (loads_list npi bq fx (sector_design D az)) as [ls|] eqn:EL; [|discriminate H]. cbn [bind] in H.
    rewrite (tot_step_loads npi bq fx D az ls u EL) in H. rewrite (IH _ _ H). clear IH H. fold o B m.
    unfold tot_step. fold B m.
    assert (EO : o az = thrustTorque (f_n fx) (blade_Np npi bq fx (sector_design D az)) (blade_Tp npi bq fx (sector_design D az))
      (x_r D) (x_precurve D) (x_presweep D) (radians (x_precone D)) (x_Rhub D) (x_Rtip D) (x_precurveTip D) (x_presweepTip D)) by reflexivity.
    rewrite <- EO. destruct (o az) as [[[[Ts Ys] Zs] Qs] Ms] eqn:E. 
    apply totals_ext; cbn [t_T t_Y t_Z t_Q t_My t_Mz t_Mb list_sum fold_right]; rewrite E; unfold oT, oY, oZ, oQ, oM; cbn [fst snd]; unfold list_sum, Rdiv; ring.
Qed.

Lemma sectors_val_totals npi bq fx D t : sectors_val npi bq fx D (azimuths (f_nSector fx)) tot0 = Ok t -> t = rotor_totals npi bq fx D.
Proof.
  intros H. rewrite (sectors_val_sums _ _ _ _ _ _ _ H). unfold rotor_totals, tot0.
  apply totals_ext; cbn [t_T t_Y t_Z t_Q t_My t_Mz t_Mb]; ring.
Qed.

Lemma eval_inv npi bq i o : eval_compute npi bq i = Ok o -> clear_ends (ri_args (eval_rotor i)) ->
  o = eval_finish (eval_fixed i) (eval_design i) (rotor_totals npi bq (eval_fixed i) (eval_design i)).
Proof.
  unfold eval_compute. intros H Hc. rewrite (object_given _ Hc) in H. cbn [bind fst snd] in H.
  fold (eval_fixed i) (eval_design i) in H. destruct (sectors_val _ _ _ _ _ _) as [t|] eqn:E; [|discriminate H]. cbn [bind] in H.
  apply ok_inj in H. rewrite <- H. rewrite (sectors_val_totals _ _ _ _ _ E). reflexivity.
Qed.

Lemma total_is_J n E v : total_rate n E v = eval_J_rate n (eval_row_of E) v.
Proof. unfold total_rate, eval_J_rate, eval_row_of. cbn [K_r K_chord K_theta K_precurve K_presweep K_Rhub K_Rtip K_hub_height K_precone K_tilt K_yaw K_shearExp K_V_load K_Omega_load K_pitch_load K_precurveTip K_presweepTip]. ring. Qed.

Lemma sector_count_pos g : (1 <= sector_count g)%nat.
Proof. unfold sector_count. destruct (andb _ _); lia. Qed.

(** All outputs, all inputs except rho and mu. *)
Lemma eval_partials_rate : forall npi bq (I : R -> eval_in) (t : R) (v : design) J o,
  eval_partials npi bq (I t) = Ok J -> eval_compute npi bq (I t) = Ok o ->
  locally t (fun s => clear_ends (ri_args (eval_rotor (I s))) /\ eval_fixed (I s) = eval_fixed (I t) /\ succeeds (eval_compute npi bq (I s))) ->
  let n := length (ei_r (I t)) in let D s := eval_design (I s) in let fx := eval_fixed (I t) in
  let rate K := eval_J_rate n K v in
  let tracks (f : eval_out -> R) K := is_derive (fun s => out f (eval_compute npi bq (I s))) t (rate K) in
  design_derive n D t v -> sectors_ok npi bq fx D t v ->
  (tracks eo_P (K_P J) /\ tracks eo_Mb (K_Mb J) /\
   forall k, (k < 3)%nat -> tracks (fun o => eo_Fhub o k) (K_Fhub J k) /\ tracks (fun o => eo_Mhub o k) (K_Mhub J k)) /\
  (rotor_radius (D t) <> 0 -> ei_V (I t) <> 0 -> ei_rho (I t) <> 0 ->
   (eo_P o <> 0 -> tracks eo_CP (K_CP J)) /\ (eo_Mb o <> 0 -> tracks eo_CMb (K_CMb J)) /\
   forall k, (k < 3)%nat -> (eo_Fhub o k <> 0 -> tracks (fun o => eo_CFhub o k) (K_CFhub J k)) /\
                            (eo_Mhub o k <> 0 -> tracks (fun o => eo_CMhub o k) (K_CMhub J k))).
Proof.
  intros npi bq I t v J o EJ EO Hloc n D fx rate tracks HD Hok.
  assert (Hc : clear_ends (ri_args (eval_rotor (I t)))) by (apply locally_singleton in Hloc; tauto).
  unfold eval_partials in EJ. rewrite (object_given _ Hc) in EJ. cbn [bind fst snd] in EJ. fold (eval_fixed (I t)) (eval_design (I t)) in EJ.
  fold fx in EJ. change (eval_design (I t)) with (D t) in EJ.
  destruct (evaluate_dv npi bq fx (D t)) as [E|] eqn:EE; [|discriminate EJ]. cbn [bind] in EJ. apply ok_inj in EJ.
  pose proof (eval_inv npi bq (I t) o EO Hc) as Eo. fold fx in Eo. change (eval_design (I t)) with (D t) in Eo.
  set (T := fun s => rotor_totals npi bq fx (D s)).
  assert (V : forall f, locally t (fun s => f (eval_finish fx (D s) (T s)) = out f (eval_compute npi bq (I s)))).
  { intros f. generalize Hloc. apply filter_imp. intros s (Hcs & Hfs & (os & Es)). rewrite Es. unfold out.
    rewrite (eval_inv npi bq (I s) os Es Hcs). rewrite Hfs. reflexivity. }
  assert (TR : forall (f : eval_out -> R) e, is_derive (fun s => f (eval_finish fx (D s) (T s))) t (total_rate n e v) ->
     tracks f (eval_row_of e)).
  { intros f e Hd. unfold tracks, rate. rewrite <- total_is_J. eapply is_derive_ext_loc; [apply (V f)|exact Hd]. }
  assert (Hn : (2 <= f_n fx)%nat) by exact (proj1 Hc).
  assert (Hm : (1 <= f_nSector fx)%nat) by apply sector_count_pos.
  destruct (evaluate_rate npi bq fx D t v E Hn Hm HD Hok EE) as (E0 & _ & HT & HY & HZ & HQ & HMy & HMz & HMb & HP).
  rewrite <- EJ. cbn [K_P K_Mb K_CP K_CMb K_Fhub K_Mhub K_CFhub K_CMhub]. split.
  - split; [apply TR; exact HP|]. split; [apply TR; exact HMb|]. intros k Hk.
    destruct k as [|[|[|k]]]; [| | |lia]; cbn [vec3 nth]; split; apply TR; assumption.
  - intros R0 U0 rho0.
    destruct (evaluate_coeff_rate npi bq fx D t v E Hn Hm HD Hok EE R0 U0 rho0) as (CT & CY & CZ & CQ & CMy & CMz & CMb & CP).
    rewrite Eo. cbn [eo_P eo_Mb eo_Fhub eo_Mhub eval_finish].
    assert (SF : forall s, force_scale fx (D s) = 1 / 2 * f_rho fx * x_Uinf (D s) ^ 2 * (PI * rotor_radius (D s) ^ 2)) by reflexivity.
    assert (SM : forall s, moment_scale fx (D s) = 1 / 2 * f_rho fx * x_Uinf (D s) ^ 2 * rotor_radius (D s) * (PI * rotor_radius (D s) ^ 2)).
    { intros s. unfold moment_scale. rewrite SF. ring. }
    assert (TRF : forall (f : eval_out -> R) e g, (forall s, f (eval_finish fx (D s) (T s)) = g s) ->
      is_derive g t (total_rate n e v) -> tracks f (eval_row_of e)).
    { intros f e g Hg Hd. apply TR. eapply is_derive_ext; [|exact Hd]. intros s. symmetry. apply Hg. }
    split; [|split].
    + intros HP0. assert (Q0 : t_Q (T t) <> 0) by (intros Z; apply HP0; fold (T t); rewrite Z; unfold Rdiv; ring).
      assert (O0 : x_Omega (D t) <> 0) by (intros Z; apply HP0; rewrite Z; unfold Rdiv; ring).
      eapply TRF; [|exact (CP Q0 O0)]. intros s. cbn [eo_CP eval_finish]. rewrite SF. reflexivity.
    + intros H0. eapply TRF; [|exact (CMb H0)]. intros s. cbn [eo_CMb eval_finish]. rewrite SM. reflexivity.
    + intros k Hk. destruct k as [|[|[|k]]]; [| | |lia]; cbn [vec3 nth]; split; intros H0.
      * eapply TRF; [|exact (CT H0)]. intros s. reflexivity.
      * eapply TRF; [|exact (CQ H0)]. intros s. cbv beta. rewrite SM. reflexivity.
      * eapply TRF; [|exact (CY H0)]. intros s. reflexivity.
      * eapply TRF; [|exact (CMy H0)]. intros s. cbv beta. rewrite SM. reflexivity.
      * eapply TRF; [|exact (CZ H0)]. intros s. reflexivity.
      * eapply TRF; [|exact (CMz H0)]. intros s. cbv beta. rewrite SM. reflexivity.
Qed.
