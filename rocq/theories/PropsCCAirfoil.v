(** Property theorems about the airfoil class: C62, C63, C78, C79, C80. *)
From Coquelicot Require Import Coquelicot.
From Coq Require Import Reals List Bool Lra Lia.
From Verif Require Import Prelim Num FlProofs Interp InterpSpec Polar PolarExt AeroDyn UnsteadyProofs StationProofs CCAirfoil CCAirfoilSpec CCAirfoilProofs CCUnsteadyProofs CCAirfoilExample CCFitSpec CCFitProofs.
Import ListNotations.
Open Scope R_scope.

(** C62: max_eff, unless the table counts as a cylinder's, gives the first angle of the scan with the largest ratio
    of lift to drag, that ratio and the coefficients there. *)
Theorem C62_max_eff : forall af Re, cc_alpha af <> [] -> ~ counts_as_cylinder (cc_alpha af) ->
  let cl := fun a => sp_ev (cc_cl af) a Re in let cd := fun a => sp_ev (cc_cd af) a Re in
  (forall k, (k <= 200)%nat -> cd (scan_angle k) <> 0) ->
  exists k E, first_largest (fun j => cl (scan_angle j) / cd (scan_angle j)) 200 k /\
    max_eff af Re = Ok (E, scan_angle k, cl (scan_angle k), cd (scan_angle k)) /\ rep E (cl (scan_angle k) / cd (scan_angle k)).
Proof. exact max_eff_scan. Qed.
Print Assumptions C62_max_eff.

(** C62: a scan angle at which both coefficients vanish (0/0) wins over all angles. *)
Theorem C62_max_eff_nan : forall af Re k, cc_alpha af <> [] -> ~ counts_as_cylinder (cc_alpha af) ->
  let cl := fun a => sp_ev (cc_cl af) a Re in let cd := fun a => sp_ev (cc_cd af) a Re in
  (k <= 200)%nat -> cl (scan_angle k) = 0 -> cd (scan_angle k) = 0 -> (forall j, (j < k)%nat -> cd (scan_angle j) <> 0) ->
  max_eff af Re = Ok (NaN, scan_angle k, 0, 0).
Proof. intros af Re k H. exact (max_eff_nan af Re H k). Qed.
Print Assumptions C62_max_eff_nan.

Theorem C62_max_eff_cylinder : forall af Re, cc_alpha af <> [] -> counts_as_cylinder (cc_alpha af) -> sp_ev (cc_cd af) 0 Re <> 0 ->
  exists E, max_eff af Re = Ok (E, 0, sp_ev (cc_cl af) 0 Re, sp_ev (cc_cd af) 0 Re) /\
    rep E (sp_ev (cc_cl af) 0 Re / sp_ev (cc_cd af) 0 Re).
Proof. exact max_eff_cylinder. Qed.
Print Assumptions C62_max_eff_cylinder.

(** C62: awayfromstall gives the angle margin degrees below the first angle of the scan with the largest lift, and
    the coefficients there. *)
Theorem C62_awayfromstall : forall af Re margin, cc_alpha af <> [] -> ~ counts_as_cylinder (cc_alpha af) ->
  let cl := fun a => sp_ev (cc_cl af) a Re in let cd := fun a => sp_ev (cc_cd af) a Re in
  exists k, first_largest (fun j => cl (scan_angle j)) 200 k /\
    let a := scan_angle k - margin * PI / 180 in
    exists E, awayfromstall af Re margin = Ok (E, a, cl a, cd a) /\ (cd a <> 0 -> rep E (cl a / cd a)).
Proof. intros af Re margin H. exact (stall_scan af Re H margin). Qed.
Print Assumptions C62_awayfromstall.

Theorem C62_awayfromstall_cylinder : forall af Re margin, cc_alpha af <> [] -> counts_as_cylinder (cc_alpha af) ->
  let cl := fun a => sp_ev (cc_cl af) a Re in let cd := fun a => sp_ev (cc_cd af) a Re in
  exists E, awayfromstall af Re margin = Ok (E, 0, cl 0, cd 0) /\ (cd 0 <> 0 -> rep E (cl 0 / cd 0)).
Proof. intros af Re margin H. exact (stall_cylinder af Re H margin). Qed.
Print Assumptions C62_awayfromstall_cylinder.

(** Lift 6 a over drag 1/100 + a^2: ratio largest near 0.1 rad; lift largest at 40 degrees. *)
Example C62_example : cc_alpha ex_af <> [] /\ ~ counts_as_cylinder (cc_alpha ex_af) /\ (forall k, sp_ev (cc_cd ex_af) (scan_angle k) 0 <> 0).
Proof.
  split; [discriminate|]. split; [exact ex_af_blade|]. intros k. cbn. assert (0 <= scan_angle k * scan_angle k) by apply Rle_0_sqr. lra.
Qed.
Example C62_example_stall : exists E cl cd, awayfromstall ex_af 0 10 = Ok (E, 30 * PI / 180, cl, cd).
Proof.
  destruct (C62_awayfromstall ex_af 0 10 ltac:(discriminate) ex_af_blade) as (k & (Hk & F & _) & E & EQ & _).
  assert (k = 200%nat) as ->.
  { destruct (Nat.eq_dec k 200) as [H|N]; [exact H|exfalso]. specialize (F 200%nat ltac:(lia)). cbn [cc_cl ex_af sp_ev] in F. unfold scan_angle in F.
    assert (P := PI_RGT_0). assert (Q : INR k + 1 <= INR 200) by (rewrite <- S_INR; apply le_INR; lia).
    assert (INR k * PI + PI <= INR 200 * PI) by nra. lra. }
  unfold scan_angle in EQ. replace ((-20 + 3 / 10 * INR 200) * PI / 180 - 10 * PI / 180) with (30 * PI / 180) in EQ by (replace (INR 200) with 200 by (rewrite INR_IZR_INZ; reflexivity); field).
  eauto.
Qed.
Example C62_example_cylinder : cc_alpha ex_cyl <> [] /\ counts_as_cylinder (cc_alpha ex_cyl) /\ sp_ev (cc_cd ex_cyl) 0 0 <> 0.
Proof. split; [discriminate|]. split; [exact ex_cyl_counts|]. cbn. lra. Qed.

(** C63 is false: some polar of varying moment makes eval_unsteady raise, however numpy.interp treats unsorted tables. *)
Theorem C63_unsteady_refuted : ~ (forall raw alpha cl cd cm, table_ok alpha cl cd cm -> changes tiny cm ->
  exists u, eval_unsteady raw alpha cl cd cm = Ok u).
Proof.
  intros H. destruct (H (fun _ _ _ => 0) _ _ _ _ flat_ok flat_changes) as (u & E). rewrite flat_fails in E. discriminate.
Qed.
Print Assumptions C63_unsteady_refuted.

(** C63: a polar with fewer than two rows raises ValueError. *)
Theorem C63_short_fails : forall raw alpha cl cd cm, (length alpha < 2)%nat ->
  length cl = length alpha -> length cd = length alpha -> length cm = length alpha ->
  eval_unsteady raw alpha cl cd cm = Raise ValueError.
Proof.
  intros raw alpha cl cd cm H L1 L2 L3. unfold eval_unsteady. rewrite L1, L2, L3, Nat.eqb_refl. cbn [andb negb].
  destruct alpha as [|a [|b alpha]]; [reflexivity| |cbn in H; lia].
  destruct cl as [|c [|? ?]]; try (cbn in L1; lia). reflexivity.
Qed.
Print Assumptions C63_short_fails.

(** C63: it raises whenever the moment has no strict minimum between the row closest to -30 degrees and the row closest
    to 35 degrees above the zero-lift row, in particular when it is constant there. *)
Theorem C63_no_dip_fails : forall raw alpha cl cd cm a0 d0 m0 l i0 h1, table_ok alpha cl cd cm -> changes tiny cm ->
  zero_lift raw alpha cl cd cm a0 d0 m0 -> closest alpha (-30) l -> closest alpha a0 i0 -> closest alpha (nth i0 alpha 0 + 35) h1 ->
  (l < h1)%nat -> (forall i, ~ dip cm l h1 i) -> eval_unsteady raw alpha cl cd cm = Raise IndexError.
Proof. exact no_dip_fails. Qed.
Print Assumptions C63_no_dip_fails.

(** C63: it raises for every polar whose moment is a convex function of the angle, for instance a linear one. *)
Theorem C63_convex_fails : forall raw alpha cl cd cm, table_ok alpha cl cd cm -> changes tiny cm -> convex alpha cm ->
  exists e, eval_unsteady raw alpha cl cd cm = Raise e.
Proof. exact unsteady_convex. Qed.
Print Assumptions C63_convex_fails.
Example C63_linear : let cm := map (fun t => - (1 / 100) * t + 0) hump_a in
  table_ok hump_a (repeat 0 7) hump_d cm /\ changes tiny cm /\ convex hump_a cm.
Proof.
  intros cm. split; [|split; [|apply linear_convex]].
  - destruct hump_ok as (A & B & C & D & _). do 4 (split; [assumption|]). reflexivity.
  - unfold changes. left. unfold cm. cbn. unfold tiny, Rabs. destruct (Rcase_abs _); lra.
Qed.

(** C63: what does hold. Without equal neighbouring moments, and with a lift that is constant or tabulated around 0
    degrees, it succeeds exactly when the moment's break point (the row farthest above the line from the zero-lift row to
    the last strict minimum) comes at least two rows after the zero-lift row. *)
Theorem C63_when : forall raw alpha cl cd cm, table_ok alpha cl cd cm -> changes tiny cm -> no_plateau cm ->
  (constant cl \/ exists l h, closest alpha (-30) l /\ closest alpha 30 h /\ (l < h)%nat) ->
  exists a0 d0 m0 l i0 h1 h i1, zero_lift raw alpha cl cd cm a0 d0 m0 /\ closest alpha (-30) l /\ closest alpha a0 i0 /\
    closest alpha (nth i0 alpha 0 + 35) h1 /\ last_dip cm l h1 h /\ breaks (above alpha cm i0 h) i0 h i1 /\
    ((i0 + 2 <= i1)%nat -> exists u, eval_unsteady raw alpha cl cd cm = Ok u) /\
    ((i1 < i0 + 2)%nat -> eval_unsteady raw alpha cl cd cm = Raise IndexError).
Proof. exact unsteady_when. Qed.
Print Assumptions C63_when.
Example C63_hump : table_ok hump_a (repeat 0 7) hump_d hump_m /\ changes tiny hump_m /\ no_plateau hump_m /\ constant (repeat 0 7) /\
  forall raw, exists u, eval_unsteady raw hump_a (repeat 0 7) hump_d hump_m = Ok u.
Proof. repeat split; [apply hump_ok..|exact hump_changes|exact hump_no_plateau|apply const_repeat|exact hump_succeeds]. Qed.

(** C80: the parameters of a polar whose moment varies: all taken at the rows described. *)
Theorem C80_moving : forall raw alpha cl cd cm u, table_ok alpha cl cd cm -> changes tiny cm ->
  eval_unsteady raw alpha cl cd cm = Ok u ->
  zero_lift raw alpha cl cd cm (us_alpha0 u) (us_Cd0 u) (us_Cm0 u) /\
  exists l i0 h1 h i1,
    closest alpha (-30) l /\ closest alpha (us_alpha0 u) i0 /\ closest alpha (nth i0 alpha 0 + 35) h1 /\ last_dip cm l h1 h /\
    (* Cn1: at the moment's break point *)
    breaks (above alpha cm i0 h) i0 h i1 /\ us_Cn1 u = normal alpha cl cd i1 /\
    (* Cn2: at the break point, on either side, before the zero-lift row *)
    (exists l2 i2, closest alpha ((nth i0 alpha 0 + nth i1 alpha 0) / 2 - 30) l2 /\
       breaks (fun i => Rabs (above alpha cm l2 i0 i)) l2 i0 i2 /\ us_Cn2 u = normal alpha cl cd i2) /\
    (* C_nalpha: largest slope between the zero-lift row and the break point *)
    (i0 + 2 <= i1)%nat /\
    (exists j, (i0 <= j < i1)%nat /\ us_Cnalpha u = row_slope alpha cl cd i0 i1 j) /\
    (forall j, (i0 <= j < i1)%nat -> row_slope alpha cl cd i0 i1 j <= us_Cnalpha u) /\
    (* alpha1: break point of the drag *)
    (exists z ia, closest alpha 0 z /\ breaks (fun i => - above alpha cd z i1 i) z i1 ia /\ us_alpha1 u = nth ia alpha 0) /\
    us_alpha2 u = - us_alpha1 u /\ us_Alpha u = alpha /\ us_Cl u = cl /\ us_Cd u = cd /\ us_Cm u = cm.
Proof.
  intros raw alpha cl cd cm u T C E.
  destruct (unsteady_moving _ _ _ _ _ _ T C E) as (a0 & d0 & m0 & l & i0 & h1 & h & i1 & Z & Cl & C0 & Ch1 & D & B & L & H1 & RS).
  destruct RS as (E1 & E2 & E3 & R4 & R5 & R6 & R7 & R8 & R9). rewrite E1, E2, E3. split; [exact Z|].
  exists l, i0, h1, h, i1. auto 14.
Qed.
Print Assumptions C80_moving.

(** C80: a polar whose moment does not vary has all break-point parameters zero. *)
Theorem C80_flat : forall raw alpha cl cd cm, table_ok alpha cl cd cm -> ~ changes tiny cm ->
  (constant cl \/ exists l h, closest alpha (-30) l /\ closest alpha 30 h /\ (l < h)%nat) ->
  exists a0 d0 m0, zero_lift raw alpha cl cd cm a0 d0 m0 /\
    eval_unsteady raw alpha cl cd cm = Ok (mkUnsteady a0 d0 m0 0 0 0 0 0 alpha cl cd cm).
Proof. exact unsteady_flat. Qed.
Print Assumptions C80_flat.
(** A cylinder: no lift, no moment. *)
Example C80_cylinder : table_ok hump_a (repeat 0 7) (repeat 1 7) (repeat 0 7) /\ ~ changes tiny (repeat 0 7) /\ constant (repeat 0 7).
Proof.
  split; [|split; [|apply const_repeat]].
  - destruct hump_ok as (A & B & _). split; [exact A|]. split; [exact B|]. auto.
  - intros C. assert (Z : forall i, nth i (repeat 0 7) 0 = 0) by (intros; apply nth_repeat). unfold changes in C. unfold tiny in C.
    destruct C as [C|[C|(i & _ & C)]]; rewrite !Z, Rminus_diag_eq, Rabs_R0 in C by reflexivity; lra.
Qed.

(** C78: the constructor refuses fewer than two angles ... *)
Theorem C78_two_angles : forall rbs alpha Re cl cd cm, (length alpha < 2)%nat -> cc_init rbs alpha Re cl cd cm = Raise ValueError.
Proof. exact cc_init_few. Qed.
Print Assumptions C78_two_angles.

(** ... and otherwise accepts every table of the documented shape, when the spline routine accepts increasing grids with
    more points than its order in each direction. *)
Theorem C78_accepts : forall rbs alpha Re cl cd cm, accepts rbs -> (2 <= length alpha)%nat -> increasing alpha -> increasing Re ->
  grid_shape alpha Re cl -> grid_shape alpha Re cd -> grid_shape alpha Re cm \/ m_rows cm = 0%nat ->
  exists af, cc_init rbs alpha Re cl cd cm = Ok af /\ cc_alpha af = map radians alpha /\
    (cc_use_cm af = true <-> (0 < m_rows cm)%nat) /\
    (forall a r b, exists l d m, cc_evaluate af a r b = Ok (l, d, m) /\ (m <> None <-> b = true /\ (0 < m_rows cm)%nat)).
Proof. exact cc_init_accepts. Qed.
Print Assumptions C78_accepts.

(** C78: data for one Reynolds number, or none, do not depend on the Reynolds number, and the Reynolds derivatives are
    zero, when the spline through identical columns is constant across them. *)
Theorem C78_single_Re : forall rbs alpha Re cl cd cm af, flat_fit rbs -> (length Re < 2)%nat -> m_cols cl = 1%nat -> m_cols cd = 1%nat ->
  cc_init rbs alpha Re cl cd cm = Ok af ->
  (forall a r r', cc_evaluate af a r false = cc_evaluate af a r' false) /\
  (forall a r, exists dl dd, cc_derivatives af a r = (dl, 0, dd, 0)).
Proof. exact cc_init_single. Qed.
Print Assumptions C78_single_Re.
Example C78_example : flat_fit ex_rbs /\ accepts ex_rbs /\
  grid_shape [-180; 0; 180] [] (mkMat 3 1 (fun i _ => INR i)) /\ increasing [-180; 0; 180] /\
  exists af, cc_init ex_rbs [-180; 0; 180] [] (mkMat 3 1 (fun i _ => INR i)) (mkMat 3 1 (fun _ _ => 1)) (zeros 0 0) = Ok af.
Proof.
  split; [|split; [|split; [|split]]].
  - intros x y M kx ky s sp E C a r r'. unfold ex_rbs in E. apply ok_inj in E. subst sp. cbn [sp_ev].
    assert (column M (m_cols M - 1) = column M 0) as ->; [|ring]. unfold column. apply map_ext. intros i.
    destruct (Nat.eq_dec (m_cols M) 0) as [->|N]; [reflexivity|]. apply C; lia.
  - intros x y M kx ky s _ _ _ _ _ _ _ _ _. eexists. reflexivity.
  - split; reflexivity.
  - intros i j H. cbn [length] in H. destruct i as [|[|[|i]]], j as [|[|[|j]]]; try lia; cbn; lra.
  - eexists. reflexivity.
Qed.

(** C79: CCAirfoil.derivatives gives the derivatives of what CCAirfoil.evaluate returns, when bisplev gives those of the
    splines; for data at one Reynolds number nothing is asked of its Reynolds derivative. *)
Theorem C79_exact : forall af alpha Re L D,
  (forall a r, cc_evaluate af a r false = Ok (L a r, D a r, None)) ->
  is_derive (fun a => sp_ev (cc_cl af) a Re) alpha (sp_dalpha (cc_cl af) alpha Re) ->
  is_derive (fun a => sp_ev (cc_cd af) a Re) alpha (sp_dalpha (cc_cd af) alpha Re) ->
  (cc_one_Re af = true -> forall a r r', sp_ev (cc_cl af) a r = sp_ev (cc_cl af) a r' /\ sp_ev (cc_cd af) a r = sp_ev (cc_cd af) a r') ->
  (cc_one_Re af = false -> exists l d, sp_dRe (cc_cl af) alpha Re = Ok l /\ sp_dRe (cc_cd af) alpha Re = Ok d /\
     is_derive (fun r => sp_ev (cc_cl af) alpha r) Re l /\ is_derive (fun r => sp_ev (cc_cd af) alpha r) Re d) ->
  exists dla dlr dda ddr, cc_derivatives af alpha Re = (dla, dlr, dda, ddr) /\
    is_derive (fun a => L a Re) alpha dla /\ is_derive (fun r => L alpha r) Re dlr /\
    is_derive (fun a => D a Re) alpha dda /\ is_derive (fun r => D alpha r) Re ddr.
Proof.
  intros af alpha Re L D E Hl Hd H1 H2.
  assert (EL : forall a r, sp_ev (cc_cl af) a r = L a r /\ sp_ev (cc_cd af) a r = D a r).
  { intros a r. specialize (E a r). unfold cc_evaluate in E. rewrite andb_false_r in E. apply ok_inj in E.
    split; [apply (f_equal (fun p => fst (fst p))) in E|apply (f_equal (fun p => snd (fst p))) in E]; exact E. }
  unfold cc_derivatives. destruct (cc_one_Re af).
  - specialize (H1 eq_refl). do 4 eexists. split; [reflexivity|]. cbn [fst snd]. split; [|split; [|split]].
    + eapply is_derive_ext; [|exact Hl]. intros t. apply EL.
    + apply is_derive_ext with (fun _ => L alpha Re); [|apply (is_derive_const (L alpha Re) Re)].
      intros t. rewrite <- (proj1 (EL alpha Re)), <- (proj1 (EL alpha t)). apply H1.
    + eapply is_derive_ext; [|exact Hd]. intros t. apply EL.
    + apply is_derive_ext with (fun _ => D alpha Re); [|apply (is_derive_const (D alpha Re) Re)].
      intros t. rewrite <- (proj2 (EL alpha Re)), <- (proj2 (EL alpha t)). apply H1.
  - destruct (H2 eq_refl) as (l & d & E1 & E2 & D1 & D2). rewrite E1, E2. cbn [bind fst snd]. do 4 eexists. split; [reflexivity|].
    split; [|split; [|split]]; (eapply is_derive_ext; [|eassumption]); intros t; apply EL.
Qed.
Print Assumptions C79_exact.

(** C79: an exception in either Reynolds derivative is swallowed and both are reported as zero. *)
Theorem C79_swallowed : forall af alpha Re e, cc_one_Re af = false ->
  (sp_dRe (cc_cl af) alpha Re = Raise e \/ sp_dRe (cc_cd af) alpha Re = Raise e) ->
  cc_derivatives af alpha Re = (sp_dalpha (cc_cl af) alpha Re, 0, sp_dalpha (cc_cd af) alpha Re, 0).
Proof.
  intros af alpha Re e O [E|E]; unfold cc_derivatives; rewrite O, E; [reflexivity|].
  destruct (sp_dRe (cc_cl af) alpha Re); reflexivity.
Qed.
Print Assumptions C79_swallowed.
Example C79_example : let L := fun a _ : R => 6 * a in let D := fun a _ : R => 1 / 100 + a * a in
  (forall a r, cc_evaluate ex_af a r false = Ok (L a r, D a r, None)) /\ cc_one_Re ex_af = false /\
  is_derive (fun a => sp_ev (cc_cd ex_af) a 0) 3 (sp_dalpha (cc_cd ex_af) 3 0) /\
  (exists l, sp_dRe (cc_cl ex_af) 3 0 = Ok l /\ is_derive (fun r => sp_ev (cc_cl ex_af) 3 r) 0 l).
Proof.
  intros L D. split; [reflexivity|]. split; [reflexivity|]. split.
  - cbn [ex_af cc_cd sp_ev sp_dalpha]. auto_derive; [exact I|ring].
  - exists 0. split; [reflexivity|]. cbn [ex_af cc_cl sp_ev]. apply (is_derive_const (6 * 3) 0).
Qed.
