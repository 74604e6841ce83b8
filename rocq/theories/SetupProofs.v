(** Proofs about declared partials (C82). *)
From Coquelicot Require Import Coquelicot.
From Coq Require Import Reals Bool Arith Ascii String List Lra Lia.
From Verif Require Import Prelim Num Bem Interp InterpSpec DiffSpec BemDiff Blade StationProofs BladeDiff BladeDiffSpec StationDvProofs BladeDvProofs EvalDvProofs
  Component ComponentSpec ComponentProofs ComponentRho ComponentSetup SetupSpec.
Import ListNotations.
Open Scope string_scope.
Open Scope R_scope.

Ltac byname H := repeat match type of H with _ \/ _ => destruct H as [<-|H] | False => contradiction H end.

Lemma geometry_only_declared y i i' o o' : In y geometry_outputs -> geometry_compute i = Ok o -> geometry_compute i' = Ok o' ->
  (forall x, In x geometry_inputs -> depends geometry_declared y x = true -> geom_input x i = geom_input x i') -> geom_output y o = geom_output y o'.
Proof.
  intros Hy E E' H. unfold geometry_compute in E, E'.
  apply bind_ok in E. destruct E as (pc & E1 & E). apply bind_ok in E. destruct E as (ps & E2 & E). apply ok_inj in E. subst o.
  apply bind_ok in E'. destruct E' as (pc' & E1' & E'). apply bind_ok in E'. destruct E' as (ps' & E2' & E'). apply ok_inj in E'. subst o'.
  assert (PC : depends geometry_declared y "precurve_in" = true -> pc = pc').
  { intros D. pose proof (H "precurve_in" ltac:(cbn; auto) D) as G. cbn in G. rewrite G in E1. rewrite E1' in E1. apply ok_inj in E1. auto. }
  assert (PS : depends geometry_declared y "presweep_in" = true -> ps = ps').
  { intros D. pose proof (H "presweep_in" ltac:(cbn; auto) D) as G. cbn in G. rewrite G in E2. rewrite E2' in E2. apply ok_inj in E2. auto. }
  assert (RT : depends geometry_declared y "Rtip" = true -> gi_Rtip i = gi_Rtip i').
  { intros D. pose proof (H "Rtip" ltac:(cbn; auto) D) as G. cbn in G. injection G. auto. }
  assert (PO : depends geometry_declared y "precone" = true -> gi_precone i = gi_precone i').
  { intros D. pose proof (H "precone" ltac:(cbn; auto 6) D) as G. cbn in G. injection G. auto. }
  cbn in Hy. byname Hy; cbn.
  - rewrite (PC eq_refl), (RT eq_refl), (PO eq_refl). reflexivity.
  - rewrite (PC eq_refl), (RT eq_refl), (PO eq_refl). reflexivity.
  - rewrite (PC eq_refl). reflexivity.
  - rewrite (PS eq_refl). reflexivity.
Qed.

Lemma loads_value npi bq i o d k : clear_ends (ri_args (load_rotor i)) -> loads_compute npi bq i = Ok (o, d) -> (k < List.length (li_r i))%nat ->
  lo_r o = li_r i /\ exists l, station_result npi bq (load_fixed i) (load_design i) k = Ok l /\ lo_Px o k = o_Np l /\ lo_Py o k = - o_Tp l /\ lo_Pz o k = 0.
Proof.
  intros Hc E Hk. destruct (compute_inv npi bq i o d E) as (fx0 & D0 & Np & Tp & E1 & E2 & Eo).
  rewrite (object_given _ Hc) in E1. apply ok_inj in E1. assert (F0 := f_equal fst E1). assert (D0' := f_equal snd E1). cbn [fst snd] in F0, D0'.
  subst fx0 D0. clear E1. change (distributed_dv npi bq (load_fixed i) (load_design i) = Ok (Np, Tp, fst d, snd d)) in E2.
  destruct (distributed_values npi bq _ _ _ _ _ _ E2 k Hk) as (l & A & B & C). rewrite Eo. cbn [lo_r lo_Px lo_Py lo_Pz]. split; [reflexivity|].
  exists l. rewrite B, C. auto.
Qed.

Lemma loads_only_declared npi bq y i i' o o' d d' k : In y loads_outputs ->
  clear_ends (ri_args (load_rotor i)) -> clear_ends (ri_args (load_rotor i')) -> loads_compute npi bq i = Ok (o, d) -> loads_compute npi bq i' = Ok (o', d') ->
  (forall x, In x loads_inputs -> depends loads_declared y x = true -> load_input x i = load_input x i') ->
  li_rho i = li_rho i' -> li_mu i = li_mu i' -> li_B i = li_B i' -> li_opts i = li_opts i' -> li_af i = li_af i' ->
  (k < List.length (li_r i))%nat -> (k < List.length (li_r i'))%nat -> load_output y o k = load_output y o' k.
Proof.
  intros Hy Hc Hc' E E' H Hrho Hmu HB Ho Ha Hk Hk'.
  destruct (loads_value npi bq i o d k Hc E Hk) as (R1 & l & A & B & C & Z). destruct (loads_value npi bq i' o' d' k Hc' E' Hk') as (R1' & l' & A' & B' & C' & Z').
  assert (N : forall x, In x loads_inputs -> depends loads_declared y x = true -> load_input x i = load_input x i') by exact H.
  assert (P : y = "loads_Px" \/ y = "loads_Py" -> l = l').
  { intros HP. assert (G : forall x, In x loads_wrt -> load_input x i = load_input x i').
    { intros x Hx. apply H.
      - cbn in Hx |- *. byname Hx; auto 30.
      - destruct HP as [-> | ->]; cbn in Hx; byname Hx; reflexivity. }
    assert (G1 := G "V_load" ltac:(cbn; auto 20)). assert (G2 := G "Omega_load" ltac:(cbn; auto 20)). assert (G3 := G "pitch_load" ltac:(cbn; auto 20)).
    assert (G4 := G "azimuth_load" ltac:(cbn; auto 20)). assert (G5 := G "r" ltac:(cbn; auto 20)). assert (G6 := G "chord" ltac:(cbn; auto 20)).
    assert (G7 := G "theta" ltac:(cbn; auto 20)). assert (G8 := G "Rhub" ltac:(cbn; auto 20)). assert (G9 := G "Rtip" ltac:(cbn; auto 20)).
    assert (G10 := G "hub_height" ltac:(cbn; auto 20)). assert (G11 := G "precone" ltac:(cbn; auto 20)). assert (G12 := G "tilt" ltac:(cbn; auto 20)).
    assert (G13 := G "yaw" ltac:(cbn; auto 20)). assert (G14 := G "precurve" ltac:(cbn; auto 20)). assert (G15 := G "shearExp" ltac:(cbn; auto 20)).
    cbn in G1, G2, G3, G4, G5, G6, G7, G8, G9, G10, G11, G12, G13, G14, G15.
    apply (f_equal (fun l => nth 0 l 0)) in G1, G2, G3, G4, G8, G9, G10, G11, G12, G13, G15. cbn in G1, G2, G3, G4, G8, G9, G10, G11, G12, G13, G15.
    enough (S : station_result npi bq (load_fixed i) (load_design i) k = station_result npi bq (load_fixed i') (load_design i') k) by (rewrite S, A' in A; apply ok_inj in A; auto).
    unfold station_result, rotor_d, sect_d, rotating_d, load_fixed, load_design, given_design, load_rotor.
    cbn [ri_args ri_call ri_af ri_afd g_r g_chord g_theta g_Rhub g_Rtip g_B g_rho g_mu g_precone g_tilt g_yaw g_shearExp g_hubHt g_nSector g_precurve g_precurveTip
         g_presweep g_presweepTip g_opts g_iterRe k_U k_Om k_p k_az f_n f_af f_afd f_B f_rho f_mu f_opts f_iterRe f_nSector
         x_r x_chord x_theta x_precurve x_presweep x_precone x_tilt x_hubHt x_Rhub x_Rtip x_precurveTip x_presweepTip x_yaw x_shear x_azimuth x_Uinf x_Omega x_pitch].
    rewrite ?G1, ?G2, ?G3, ?G4, ?G5, ?G6, ?G7, ?G8, ?G9, ?G10, ?G11, ?G12, ?G13, ?G14, ?G15, ?Hrho, ?Hmu, ?HB, ?Ho, ?Ha. reflexivity. }
  cbn in Hy. byname Hy; cbn.
  - rewrite R1, R1'. assert (G := H "r" ltac:(cbn; auto 20) eq_refl). cbn in G. rewrite G. reflexivity.
  - rewrite B, B', (P ltac:(auto)). reflexivity.
  - rewrite C, C', (P ltac:(auto)). reflexivity.
  - rewrite Z, Z'. reflexivity.
Qed.

Lemma station_at_one npi bq fx D k l : re_free (f_af fx k) -> station_result npi bq fx D k = Ok l -> succeeds (station_result npi bq (fx_with_rho fx 1) D k).
Proof.
  intros Hf El. unfold station_result, solve_station in *. set (sc := sect_d fx D k) in *.
  change (rotor_d (fx_with_rho fx 1) D) with (rt_with_rho (rotor_d fx D) 1). change (sect_d (fx_with_rho fx 1) D k) with sc.
  change (rt_iterRe (rt_with_rho (rotor_d fx D) 1)) with (rt_iterRe (rotor_d fx D)).
  apply bind_ok in El. destruct El as (phi & E1 & E2).
  assert (P : (if rotating_d D then match rt_iterRe (rotor_d fx D) with O => Raise NameError | S m => solve npi bq (errf (rt_with_rho (rotor_d fx D) 1) sc m) end
    else Ok (ofR (npi / 2))) = Ok phi).
  { destruct (rotating_d D); [|exact E1]. destruct (rt_iterRe (rotor_d fx D)); [exact E1|]. rewrite errf_rho by apply Hf. exact E1. }
  rewrite P. cbn [bind]. apply bind_ok in E2. destruct E2 as (l0 & E2 & _).
  assert (G : exists l1, loads (rt_with_rho (rotor_d fx D) 1) phi (rotating_d D) sc = Ok l1).
  { unfold loads in *. destruct (andb _ _); [|eexists; reflexivity]. destruct (rotating_d D).
    - unfold runBEM in *. cbn [rt_iterRe rt_with_rho] in *. destruct (rt_iterRe (rotor_d fx D)); [discriminate E2|]. clear E2. cbn [bind].
      destruct (bem_loop _ _ _ _) as [[[[? ?] ?] ?] ?]. cbn [bind].
      destruct (@relativeWind R _ _ _ _ _ _ _ _ _ _ _) as [[? ?] ?]. eexists; reflexivity.
    - clear E2. destruct (@relativeWind R _ _ _ _ _ _ _ _ _ _ _) as [[? ?] ?]. destruct (s_af sc _ _) as [? ?]. cbn [bind].
      try destruct (@relativeWind R _ _ _ _ _ _ _ _ _ _ _) as [[? ?] ?]. eexists; reflexivity. }
  destruct G as [l1 G]. rewrite G. cbn [bind]. rewrite nan_guard_R. eexists. reflexivity.
Qed.

Lemma loads_density npi bq i rho o o' d d' k : clear_ends (ri_args (load_rotor i)) -> re_free (li_af i k) -> (k < List.length (li_r i))%nat ->
  loads_compute npi bq i = Ok (o, d) -> loads_compute npi bq (set_load_rho i rho) = Ok (o', d') ->
  li_rho i * lo_Px o' k = rho * lo_Px o k /\ li_rho i * lo_Py o' k = rho * lo_Py o k.
Proof.
  intros Hc Hf Hk E E'. destruct (loads_value npi bq i o d k Hc E Hk) as (_ & l & A & B & C & _).
  destruct (loads_value npi bq (set_load_rho i rho) o' d' k Hc E' Hk) as (_ & l' & A' & B' & C' & _).
  set (fx := load_fixed i) in *. set (D := load_design i) in *. change (load_design (set_load_rho i rho)) with D in A'.
  change (load_fixed (set_load_rho i rho)) with (fx_with_rho fx rho) in A'. assert (EF : fx = fx_with_rho fx (li_rho i)) by reflexivity.
  destruct (station_at_one npi bq fx D k l Hf A) as [l1 E1].
  destruct (station_rho npi bq fx D k rho l1 Hf E1) as (m & M1 & M2 & M3). rewrite A' in M1. apply ok_inj in M1. subst m.
  destruct (station_rho npi bq fx D k (li_rho i) l1 Hf E1) as (m & N1 & N2 & N3). rewrite <- EF in N1. rewrite A in N1. apply ok_inj in N1. subst m.
  rewrite B, B', C, C', M2, M3, N2, N3. split; ring.
Qed.

Ltac keys H := cbn in H; repeat match type of H with _ \/ _ => destruct H as [H|H] | False => contradiction H end; apply pair_equal_spec in H; destruct H as [<- <-].
Lemma written_declared y x :
  (In (y, x) geometry_keys -> depends geometry_declared y x = true /\ constant geometry_declared y x = false) /\
  (In (y, x) loads_keys -> depends loads_declared y x = true /\ constant loads_declared y x = false) /\
  (In (y, x) evaluate_keys -> depends evaluate_declared y x = true /\ constant evaluate_declared y x = false).
Proof. split; [|split]; intros H; keys H; split; reflexivity. Qed.

Definition key_eqb (a b : string * string) : bool := andb (String.eqb (fst a) (fst b)) (String.eqb (snd a) (snd b)).
Lemma key_in y x l : existsb (key_eqb (y, x)) l = true <-> In (y, x) l.
Proof.
  rewrite existsb_exists. split.
  - intros ((a & b) & H & E). unfold key_eqb in E. cbn [fst snd] in E. apply andb_true_iff in E. destruct E as [E1 E2]. apply String.eqb_eq in E1, E2. subst. exact H.
  - intros H. exists (y, x). split; [exact H|]. unfold key_eqb. cbn [fst snd]. rewrite !String.eqb_refl. reflexivity.
Qed.
Lemma forall2_in (f : string -> string -> bool) ys xs : forallb (fun y => forallb (f y) xs) ys = true -> forall y x, In y ys -> In x xs -> f y x = true.
Proof. intros H y x Hy Hx. rewrite forallb_forall in H. specialize (H y Hy). rewrite forallb_forall in H. exact (H x Hx). Qed.

Lemma declared_written y x :
  (In y geometry_outputs -> In x geometry_inputs -> depends geometry_declared y x = true -> In (y, x) geometry_keys \/ constant geometry_declared y x = true) /\
  (In y loads_outputs -> In x loads_inputs -> depends loads_declared y x = true -> In (y, x) loads_keys \/ constant loads_declared y x = true) /\
  (In y evaluate_outputs -> In x evaluate_inputs -> (depends evaluate_declared y x = true /\ ~ In (y, x) evaluate_keys <-> x = "rho" \/ x = "mu")).
Proof.
  split; [|split]; intros Hy Hx.
  - pose proof (forall2_in (fun y x => orb (negb (depends geometry_declared y x)) (orb (existsb (key_eqb (y, x)) geometry_keys) (constant geometry_declared y x)))
      geometry_outputs geometry_inputs eq_refl y x Hy Hx) as H. cbv beta in H. rewrite !orb_true_iff, negb_true_iff, key_in in H. intros D. rewrite D in H. destruct H as [H|H]; [discriminate H|exact H].
  - pose proof (forall2_in (fun y x => orb (negb (depends loads_declared y x)) (orb (existsb (key_eqb (y, x)) loads_keys) (constant loads_declared y x)))
      loads_outputs loads_inputs eq_refl y x Hy Hx) as H. cbv beta in H. rewrite !orb_true_iff, negb_true_iff, key_in in H. intros D. rewrite D in H. destruct H as [H|H]; [discriminate H|exact H].
  - pose proof (forall2_in (fun y x => Bool.eqb (andb (depends evaluate_declared y x) (negb (existsb (key_eqb (y, x)) evaluate_keys))) (orb (String.eqb x "rho") (String.eqb x "mu")))
      evaluate_outputs evaluate_inputs eq_refl y x Hy Hx) as H. cbv beta in H. apply eqb_prop in H.
    rewrite <- (String.eqb_eq x "rho"), <- (String.eqb_eq x "mu"), <- orb_true_iff, <- H, andb_true_iff, negb_true_iff, <- not_true_iff_false, key_in. reflexivity.
Qed.

(** The keys of compute_partials are pairs of declared names. *)
Definition member (x : string) (q : list string) : bool := existsb (String.eqb x) q.
Lemma member_In x q : member x q = true -> In x q.
Proof. unfold member. rewrite existsb_exists. intros (y & H & E). apply String.eqb_eq in E. subst. exact H. Qed.
Fixpoint distinct (q : list string) : bool := match q with [] => true | x :: q' => andb (negb (member x q')) (distinct q') end.
Lemma distinct_NoDup q : distinct q = true -> NoDup q.
Proof.
  induction q as [|x q IH]; cbn [distinct]; intros H; constructor; apply andb_prop in H; destruct H as (H1 & H2); [|auto].
  intros I. apply negb_true_iff in H1. assert (member x q = true); [|congruence].
  unfold member. apply existsb_exists. exists x. split; [exact I|apply String.eqb_refl].
Qed.
Lemma keys_named (keys : list (string * string)) outs ins : forallb (fun k => andb (member (fst k) outs) (member (snd k) ins)) keys = true ->
  forall y x, In (y, x) keys -> In y outs /\ In x ins.
Proof.
  intros H y x I. rewrite forallb_forall in H. apply H in I. apply andb_prop in I. cbn [fst snd] in I. destruct I. split; apply member_In; assumption.
Qed.
Lemma key_names : forall y x,
  (In (y, x) geometry_keys -> In y geometry_outputs /\ In x geometry_inputs) /\
  (In (y, x) loads_keys -> In y loads_outputs /\ In x loads_inputs) /\
  (In (y, x) evaluate_keys -> In y evaluate_outputs /\ In x evaluate_inputs) /\
  NoDup (geometry_inputs ++ geometry_outputs) /\ NoDup (loads_inputs ++ loads_outputs) /\ NoDup (evaluate_inputs ++ evaluate_outputs).
Proof.
  intros y x. refine (conj _ (conj _ (conj _ (conj _ (conj _ _))))); try (apply keys_named; vm_compute; reflexivity); apply distinct_NoDup; vm_compute; reflexivity.
Qed.
