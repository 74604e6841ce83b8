(** Declared partial derivatives of the OpenMDAO components (C82). *)
From Coquelicot Require Import Coquelicot.
From Coq Require Import Reals Bool Arith Ascii String List Lra Lia.
From Verif Require Import Prelim Num Bem Interp InterpSpec DiffSpec BemDiff Blade StationProofs BladeDiff BladeDiffSpec StationDvProofs BladeDvProofs EvalDvProofs
  BladeDvExample SectorWitness Component ComponentSpec ComponentProofs ComponentRho ExactRotor ComponentWitness ComponentSetup SetupSpec SetupProofs.
Import ListNotations.
Open Scope string_scope.
Open Scope R_scope.

(** ** C82: compute_partials writes only at pairs that setup declares dependent (else the framework raises) ... *)
Theorem C82_written_is_declared : forall y x,
  (In (y, x) geometry_keys -> depends geometry_declared y x = true /\ constant geometry_declared y x = false) /\
  (In (y, x) loads_keys -> depends loads_declared y x = true /\ constant loads_declared y x = false) /\
  (In (y, x) evaluate_keys -> depends evaluate_declared y x = true /\ constant evaluate_declared y x = false).
Proof. exact written_declared. Qed.
Print Assumptions C82_written_is_declared.

(** ... and at all of them that are not given in setup, except that CCBladeEvaluate misses exactly rho and mu. *)
Theorem C82_declared_is_written : forall y x,
  (In y geometry_outputs -> In x geometry_inputs -> depends geometry_declared y x = true -> In (y, x) geometry_keys \/ constant geometry_declared y x = true) /\
  (In y loads_outputs -> In x loads_inputs -> depends loads_declared y x = true -> In (y, x) loads_keys \/ constant loads_declared y x = true) /\
  (In y evaluate_outputs -> In x evaluate_inputs -> (depends evaluate_declared y x = true /\ ~ In (y, x) evaluate_keys <-> x = "rho" \/ x = "mu")).
Proof. exact declared_written. Qed.
Print Assumptions C82_declared_is_written.

(** Every key names an output and an input of its component, and no name is given to two of them. *)
Theorem C82_names : forall y x,
  (In (y, x) geometry_keys -> In y geometry_outputs /\ In x geometry_inputs) /\
  (In (y, x) loads_keys -> In y loads_outputs /\ In x loads_inputs) /\
  (In (y, x) evaluate_keys -> In y evaluate_outputs /\ In x evaluate_inputs) /\
  NoDup (geometry_inputs ++ geometry_outputs) /\ NoDup (loads_inputs ++ loads_outputs) /\ NoDup (evaluate_inputs ++ evaluate_outputs).
Proof. exact key_names. Qed.
Print Assumptions C82_names.

(** An output of CCBladeGeometry is a function of the inputs declared for it. *)
Theorem C82_geometry : forall y i i' o o', In y geometry_outputs -> geometry_compute i = Ok o -> geometry_compute i' = Ok o' ->
  (forall x, In x geometry_inputs -> depends geometry_declared y x = true -> geom_input x i = geom_input x i') -> geom_output y o = geom_output y o'.
Proof. exact geometry_only_declared. Qed.
Print Assumptions C82_geometry.

(** So is an output of CCBladeLoads, up to what the class comment excepts (airfoils, rho, mu) and the discrete inputs. *)
Theorem C82_loads : forall npi bq y i i' o o' d d' k, In y loads_outputs ->
  clear_ends (ri_args (load_rotor i)) -> clear_ends (ri_args (load_rotor i')) -> loads_compute npi bq i = Ok (o, d) -> loads_compute npi bq i' = Ok (o', d') ->
  (forall x, In x loads_inputs -> depends loads_declared y x = true -> load_input x i = load_input x i') ->
  li_rho i = li_rho i' -> li_mu i = li_mu i' -> li_B i = li_B i' -> li_opts i = li_opts i' -> li_af i = li_af i' ->
  (k < List.length (li_r i))%nat -> (k < List.length (li_r i'))%nat -> load_output y o k = load_output y o' k.
Proof. exact loads_only_declared. Qed.
Print Assumptions C82_loads.

(** The exception of rho is one: the loads are proportional to it, though their partials with respect to it are taken as zero. *)
Theorem C82_density : forall npi bq i rho o o' d d' k, clear_ends (ri_args (load_rotor i)) -> re_free (li_af i k) -> (k < List.length (li_r i))%nat ->
  loads_compute npi bq i = Ok (o, d) -> loads_compute npi bq (set_load_rho i rho) = Ok (o', d') ->
  (depends loads_declared "loads_Px" "rho" = false /\ depends loads_declared "loads_Py" "rho" = false) /\
  li_rho i * lo_Px o' k = rho * lo_Px o k /\ li_rho i * lo_Py o' k = rho * lo_Py o k.
Proof. intros. split; [split; reflexivity|]. eapply loads_density; eassumption. Qed.
Print Assumptions C82_density.

(** The rotor of ExactRotor with any density and precurveTip. *)
Definition xt (rho tip : R) : load_in :=
  mkLoadIn [1; 2] [1 / 10; 1 / 10] [0; 0] (1 / 2) 3 90 0 0 0 [0; 0] tip 1 rho 1 0 4 ex_opts 1 (150 / PI) 0 0 (fun _ => ex_af) (fun _ => ex_afd).
Lemma xt_clear rho tip : clear_ends (ri_args (load_rotor (xt rho tip))).
Proof.
  unfold clear_ends, load_rotor, xt. cbn [ri_args g_r g_Rhub g_Rtip g_precurve g_precurveTip g_presweep g_presweepTip li_r li_Rhub li_Rtip li_precurve li_precurveTip List.length hd last fill_precurve].
  split; [lia|]. split; [apply two_increasing; lra|]. split; [lra|]. split; [lra|]. split; split; try reflexivity; right; reflexivity.
Qed.
Lemma xt_value npi rho tip : exists o d, loads_compute npi ex_bq (xt rho tip) = Ok (o, d) /\
  lo_Px o 0%nat = 2 * ex_c * rho * (1 / 10) * slowed 1 1 (1 / 10) ^ 2.
Proof.
  unfold loads_compute. rewrite (object_given _ (xt_clear rho tip)). cbn [bind fst snd].
  destruct (flat_dv npi (1 / 10) 1 1 0 0 (1 / 2) rho 1) as ((((Np & Tp) & dNp) & dTp) & ED & HN); try lra.
  { rewrite radians_0, cos_0. lra. }
  { rewrite Rabs_right; lra. }
  assert (FX : given_fixed (load_rotor (xt rho tip)) = mkFixed 2 (fun _ => ex_af) (fun _ => ex_afd) 1 rho 1 ex_opts 1 1).
  { unfold given_fixed, sector_count, load_rotor, xt. cbn [ri_args g_tilt g_yaw g_shearExp li_tilt li_yaw li_shearExp].
    replace (reqb 0 0) with true by (symmetry; apply reqb_true; reflexivity). reflexivity. }
  rewrite FX. change (distributed_dv npi ex_bq (mkFixed 2 (fun _ => ex_af) (fun _ => ex_afd) 1 rho 1 ex_opts 1 1) (given_design (load_rotor (xt rho tip))) = Ok (Np, Tp, dNp, dTp)) in ED.
  rewrite ED. cbn [bind]. eexists. eexists. split; [reflexivity|]. cbn [lo_Px]. cbn [fst] in HN. rewrite (HN 0%nat ltac:(lia)).
  rewrite radians_0, cos_0. replace (1 * 1) with 1 by ring. reflexivity.
Qed.

Example C82_example : forall npi, exists o d o' d' o2 d2,
  loads_compute npi ex_bq (xt 1 0) = Ok (o, d) /\ loads_compute npi ex_bq (xt 1 7) = Ok (o', d') /\ loads_compute npi ex_bq (set_load_rho (xt 1 0) 2) = Ok (o2, d2) /\
  clear_ends (ri_args (load_rotor (xt 1 0))) /\ clear_ends (ri_args (load_rotor (xt 1 7))) /\ re_free (li_af (xt 1 0) 0) /\
  (forall x, In x loads_inputs -> depends loads_declared "loads_Px" x = true -> load_input x (xt 1 0) = load_input x (xt 1 7)) /\
  load_input "precurveTip" (xt 1 0) <> load_input "precurveTip" (xt 1 7) /\ lo_Px o 0%nat = lo_Px o' 0%nat /\ lo_Px o2 0%nat = 2 * lo_Px o 0%nat /\ lo_Px o 0%nat <> 0.
Proof.
  intros npi. destruct (xt_value npi 1 0) as (o & d & E & V). destruct (xt_value npi 1 7) as (o' & d' & E' & V'). destruct (xt_value npi 2 0) as (o2 & d2 & E2 & V2).
  exists o, d, o', d', o2, d2. split; [exact E|]. split; [exact E'|]. split; [exact E2|]. split; [apply xt_clear|]. split; [apply xt_clear|].
  split; [intros al Re Re'; reflexivity|]. split; [|split].
  - intros x Hx Hd. cbn in Hx. byname Hx; try reflexivity; discriminate Hd.
  - intros C. cbn in C. apply (f_equal (fun l => nth 0 l 0)) in C. cbn in C. lra.
  - rewrite V, V', V2. split; [reflexivity|]. split; [ring|].
    assert (P : 0 < slowed 1 1 (1 / 10)) by (apply slowed_pos; lra). assert (0 < ex_c) by (unfold ex_c; pose proof PI_RGT_0; lra). pose proof (pow_lt _ 2 P). nra.
Qed.

(** Geometry: another radius, presweep and coning, the same precurve. *)
Example C82_geometry_example : exists o o',
  geometry_compute (mkGeomIn 50 [0; 3] [0; 1] 0) = Ok o /\ geometry_compute (mkGeomIn 60 [0; 3] [0; 2] 5) = Ok o' /\
  (forall x, In x geometry_inputs -> depends geometry_declared "precurveTip" x = true -> geom_input x (mkGeomIn 50 [0; 3] [0; 1] 0) = geom_input x (mkGeomIn 60 [0; 3] [0; 2] 5)) /\
  geom_output "precurveTip" o = geom_output "precurveTip" o' /\ geom_output "presweepTip" o <> geom_output "presweepTip" o'.
Proof.
  eexists. eexists. split; [reflexivity|]. split; [reflexivity|]. split; [|split].
  - intros x Hx Hd. cbn in Hx. byname Hx; try reflexivity; discriminate Hd.
  - reflexivity.
  - intros C. cbn in C. apply (f_equal (fun l => nth 0 l 0)) in C. cbn in C. lra.
Qed.
