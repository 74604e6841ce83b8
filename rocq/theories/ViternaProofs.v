(** Lift and drag outside the data of an extrapolated polar (C124, C125). *)
From Coq Require Import Reals List Bool ZArith Lra Lia FunctionalExtensionality.
From Verif Require Import Prelim Interp Polar PolarExt InterpSpec PolarSpec PolarProofs PolarExtProofs PolarCmProofs PolarExtFacts ViternaSpec.
Import ListNotations.
Open Scope R_scope.

Lemma amax_spec l m : amax l = Ok m -> In m l /\ forall d, In d l -> d <= m.
Proof.
  destruct l as [|x l]; [discriminate|]. cbn [amax]. intros E. assert (E' : fold_left Rmax l x = m) by congruence. clear E. revert x E'.
  induction l as [|y l IH]; intros x E; cbn [fold_left] in E.
  - subst. split; [left; reflexivity|]. intros d [->|[]]. lra.
  - destruct (IH _ E) as (H1 & H2). pose proof (H2 _ (or_introl eq_refl)) as Hx. split.
    + destruct H1 as [H1|H1]; [|right; right; exact H1]. unfold Rmax in H1. destruct (Rle_dec x y); [right; left; exact H1|left; exact H1].
    + intros d [->|[->|H]]; [apply Rle_trans with (Rmax d y); [apply Rmax_l|exact Hx]|apply Rle_trans with (Rmax x d); [apply Rmax_r|exact Hx]|apply H2; right; exact H].
Qed.

Lemma cdm_peak p cdmax AR : wf_polar p -> peak_drag p cdmax AR (cdm p cdmax AR).
Proof.
  intros W. assert (Ecd : exists m, amax (p_cd p) = Ok m).
  { destruct W as (N & _ & _ & L & _). destruct (p_cd p); [destruct (p_alpha p); [congruence|discriminate]|eexists; reflexivity]. }
  destruct Ecd as [m Em]. destruct (amax_spec _ _ Em) as (H1 & H2). unfold cdm, peak_drag. rewrite Em. cbv zeta.
  split; [apply Rmax_r|]. split; [intros d Hd; apply Rle_trans with m; [apply H2; exact Hd|apply Rmax_l]|].
  unfold Rmax. destruct (Rle_dec m _); [left; reflexivity|right; exact H1].
Qed.

Lemma Rmax_formula x y : Rmax x y = (x + y + Rabs (x - y)) / 2.
Proof. unfold Rmax, Rabs. destruct (Rle_dec x y), (Rcase_abs (x - y)); lra. Qed.

(** The two functions, of an angle in degrees. *)
Definition fL (cm A : R) (a : R) : R := viterna_cl cm A 1 (radians a).
Definition fD (cm B : R) (a : R) : R := viterna_cd cm B (radians a).

Lemma fD_cont cm B : continuity (fD cm B).
Proof.
  assert (C : continuity (fun x => (x + 1 / 10000 + Rabs (x - 1 / 10000)) / 2)).
  { intros x. apply continuity_pt_mult; [|apply continuity_pt_const; intros ? ?; reflexivity].
    apply continuity_pt_plus; [reg|]. apply (continuity_pt_comp (fun x => x - 1 / 10000) Rabs); [reg|apply Rcontinuity_abs]. }
  intros x. unfold fD, viterna_cd. cbv zeta.
  apply (continuity_pt_comp radians (fun t => cm * sin (Rmax t (1 / 10000)) ^ 2 + B * cos (Rmax t (1 / 10000)))); [unfold radians; reg|].
  apply (continuity_pt_comp (fun t => Rmax t (1 / 10000)) (fun m => cm * sin m ^ 2 + B * cos m)); [|reg].
  replace (fun t => Rmax t (1 / 10000)) with (fun x => (x + 1 / 10000 + Rabs (x - 1 / 10000)) / 2); [apply C|].
  apply functional_extensionality. intros y. symmetry. apply Rmax_formula.
Qed.

Lemma lin_ne a b n : (2 <= n)%nat -> linspace a b n <> [] /\ tl (linspace a b n) <> [].
Proof. intros Hn. pose proof (linspace_length a b n) as L. destruct (linspace a b n) as [|x [|y l]]; simpl in *; [lia|lia|split; discriminate]. Qed.
Lemma final_in (l : list R) : l <> [] -> In (final l) l.
Proof. intros H. unfold final. apply nth_In. destruct l; [congruence|simpl; lia]. Qed.
Lemma tlin_final a b n : (2 <= n)%nat -> In b (tl (linspace a b n)).
Proof.
  intros Hn. destruct (lin_ne a b n Hn) as (_ & N). pose proof (final_in _ N) as F. rewrite final_tl in F by (rewrite linspace_length; exact Hn).
  rewrite linspace_final in F by exact Hn. exact F.
Qed.

(** The rows. *)
Section Rows.
Variables (p : polar) (n : nat) (cm : R).
Let h := radians (final (p_alpha p)).
Let lo := radians (first (p_alpha p)).
Let ch := final (p_cl p).
Definition mkrow (f g : R -> R) (t : R) : row := (degrees t, f t, g t).
Definition hi_rows : list row :=
  map (mkrow (viterna_cl cm (vA p cm) 1) (viterna_cd cm (vB p cm))) (seg1 p n) ++
  map (mkrow (fun a => viterna_cl cm (vA p cm) (- (7 / 10)) (PI - a)) (fun a => viterna_cd cm (vB p cm) (PI - a))) (seg2 p n) ++
  map (mkrow (fun a => (a - PI) / h * ch * (7 / 10)) (fun a => viterna_cd cm (vB p cm) (PI - a))) (seg3 p n).
Definition lo_rows : list row :=
  map (mkrow (fun a => (a + PI) / h * ch * (7 / 10)) (fun a => viterna_cd cm (vB p cm) (a + PI))) (seg7 p n) ++
  map (mkrow (fun a => viterna_cl cm (vA p cm) (7 / 10) (a + PI)) (fun a => viterna_cd cm (vB p cm) (a + PI))) (seg6 p n) ++
  map (mkrow (fun a => viterna_cl cm (vA p cm) (- (7 / 10)) (- a)) (fun a => viterna_cd cm (vB p cm) (- a))) (seg5 p n) ++
  map (mkrow (fun a => - ch * (7 / 10) + (a + h) / (lo + h) * (first (p_cl p) + ch * (7 / 10)))
             (fun a => first (p_cd p) + (a - lo) / (- h - lo) * (final (p_cd p) - first (p_cd p)))) (seg4 p n).

Lemma hi_angle : map angle hi_rows = map degrees (after p n).
Proof. unfold hi_rows, after. rewrite !map_app, !map_map. reflexivity. Qed.
Lemma lo_angle : map angle lo_rows = map degrees (before p n).
Proof. unfold lo_rows, before. rewrite !map_app, !map_map. reflexivity. Qed.
Lemma hi_lift : map lift hi_rows = cl_after p n cm.
Proof. unfold hi_rows, cl_after. rewrite !map_app, !map_map. reflexivity. Qed.
Lemma lo_lift : map lift lo_rows = cl_before p n cm.
Proof. unfold lo_rows, cl_before. rewrite !map_app, !map_map. reflexivity. Qed.
Lemma hi_drag : map drag hi_rows = cd_after p n cm.
Proof. unfold hi_rows, cd_after. rewrite !map_app, !map_map. reflexivity. Qed.
Lemma lo_drag : map drag lo_rows = cd_before p n cm.
Proof. unfold lo_rows, cd_before. rewrite !map_app, !map_map. reflexivity. Qed.
End Rows.

Lemma adj_scale cm A k a : viterna_cl cm A k a = k * viterna_cl cm A 1 a.
Proof. unfold viterna_cl. cbv zeta. ring. Qed.

Section Where.
Variables (p : polar) (n : nat) (cm : R).
Hypothesis Hn : (2 <= n)%nat.
Let an := final (p_alpha p).
Let a0 := first (p_alpha p).
Hypothesis Han : 0 < an < 90.
Hypothesis Ha0 : -90 < a0 <= an.
Let k := PI / 180.
Let L := fL cm (vA p cm).
Let D := fD cm (vB p cm).

Lemma kpos : 0 < k. Proof. unfold k. pose proof PI_RGT_0. lra. Qed.
Lemma kpi : PI = 180 * k. Proof. unfold k. field. Qed.
Lemma krad a : radians a = a * k. Proof. reflexivity. Qed.
Lemma kdeg t : exists a, t = a * k /\ degrees t = a.
Proof. exists (degrees t). split; [|reflexivity]. rewrite <- krad. symmetry. apply radians_degrees. Qed.

Lemma upper_rows : Forall (upper_row an (final (p_cl p)) L D) (hi_rows p n cm).
Proof.
  pose proof kpos as K. pose proof kpi as KP. unfold hi_rows. rewrite !Forall_app, !Forall_map. 
  split; [|split]; apply Forall_forall; intros t Ht; unfold upper_row, mkrow, angle, lift, drag; cbn [fst snd]; cbv zeta;
    destruct (kdeg t) as (a & Et & ->).
  - apply tlin_in in Ht; [|exact Hn|rewrite krad; fold an; nra]. rewrite krad in Ht. fold an in Ht. rewrite KP, Et in Ht.
    assert (an < a <= 90) by (split; [apply Rmult_lt_reg_r with k|apply Rmult_le_reg_r with k]; lra).
    split; [lra|]. split; [intros _; unfold L, D, fL, fD; rewrite krad, Et; split; reflexivity|]. split; intros; exfalso; lra.
  - apply tlin_in in Ht; [|exact Hn|rewrite krad; fold an; nra]. rewrite krad in Ht. fold an in Ht. rewrite KP, Et in Ht.
    assert (90 < a <= 180 - an) by (split; [apply Rmult_lt_reg_r with k|apply Rmult_le_reg_r with k]; lra).
    split; [lra|]. split; [intros; exfalso; lra|]. split; [|intros; exfalso; lra]. intros _. unfold L, D, fL, fD. rewrite krad, Et, KP.
    replace ((180 - a) * k) with (180 * k - a * k) by ring. split; [apply adj_scale|reflexivity].
  - apply tlin_in in Ht; [|exact Hn|rewrite krad; fold an; nra]. rewrite krad in Ht. fold an in Ht. rewrite KP, Et in Ht.
    assert (180 - an < a <= 180) by (split; [apply Rmult_lt_reg_r with k|apply Rmult_le_reg_r with k]; lra).
    split; [lra|]. split; [intros; exfalso; lra|]. split; [intros; exfalso; lra|]. intros _. unfold D, fD. rewrite !krad, Et, KP. fold an.
    replace ((180 - a) * k) with (180 * k - a * k) by ring. split; [|reflexivity].
    unfold on_line. field. split; lra.
Qed.

Lemma lower_rows : Forall (lower_row an (final (p_cl p)) (final (p_cd p)) a0 (first (p_cl p)) (first (p_cd p)) L D) (lo_rows p n cm).
Proof.
  pose proof kpos as K. pose proof kpi as KP. unfold lo_rows. rewrite !Forall_app, !Forall_map.
  split; [|split; [|split]]; apply Forall_forall; intros t Ht; unfold lower_row, mkrow, angle, lift, drag; cbn [fst snd]; cbv zeta;
    destruct (kdeg t) as (a & Et & ->).
  - apply linspace_in in Ht; [|exact Hn|rewrite krad; fold an; nra]. rewrite krad in Ht. fold an in Ht. rewrite KP, Et in Ht.
    assert (-180 <= a <= -180 + an) by (split; apply Rmult_le_reg_r with k; lra).
    split; [lra|]. split; [|split; [intros; exfalso; lra|split; intros; exfalso; lra]]. intros _. unfold D, fD. rewrite !krad, Et, KP. fold an.
    replace ((180 + a) * k) with (a * k + 180 * k) by ring. split; [|reflexivity]. unfold on_line. field. split; lra.
  - apply tlin_in in Ht; [|exact Hn|rewrite krad; fold an; nra]. rewrite krad in Ht. fold an in Ht. rewrite KP, Et in Ht.
    assert (-180 + an < a <= -90) by (split; [apply Rmult_lt_reg_r with k|apply Rmult_le_reg_r with k]; lra).
    split; [lra|]. split; [intros; exfalso; lra|]. split; [|split; intros; exfalso; lra]. intros _. unfold L, D, fL, fD. rewrite krad, Et, KP.
    replace ((180 + a) * k) with (a * k + 180 * k) by ring. split; [apply adj_scale|reflexivity].
  - unfold seg5 in Ht. rewrite !krad in Ht. fold an a0 in Ht. rewrite KP in Ht.
    assert (B : -90 < a <= a0 /\ (a <= - an \/ a0 <= - an)).
    { destruct (rleb (a0 * k) (- (an * k))) eqn:E; rb_hyps; (apply tlin_in in Ht; [|exact Hn|nra]); rewrite Et in Ht.
      - assert (a0 <= - an) by (apply Rmult_le_reg_r with k; lra).
        assert (-90 < a <= a0) by (split; [apply Rmult_lt_reg_r with k|apply Rmult_le_reg_r with k]; lra). tauto.
      - assert (- an < a0) by (apply Rmult_lt_reg_r with k; lra).
        assert (-90 < a <= - an) by (split; [apply Rmult_lt_reg_r with k|apply Rmult_le_reg_r with k]; lra). split; [lra|]. left. lra. }
    split; [lra|]. split; [intros; exfalso; lra|]. split; [intros; exfalso; lra|]. split; [|intros; exfalso; lra]. intros _ _.
    unfold L, D, fL, fD. rewrite krad, Et. replace (- a * k) with (- (a * k)) by ring. split; [apply adj_scale|reflexivity].
  - unfold seg4 in Ht. rewrite !krad in Ht. fold an a0 in Ht. destruct (rleb (a0 * k) (- (an * k))) eqn:E; rb_hyps; [destruct Ht|].
    apply slin_in in Ht; [|exact Hn|lra]. rewrite Et in Ht.
    assert (- an < a < a0) by (split; apply Rmult_lt_reg_r with k; lra).
    split; [lra|]. split; [intros; exfalso; lra|]. split; [intros; exfalso; lra|]. split; [intros; exfalso; lra|]. intros _ _.
    rewrite Et, !krad. fold an a0. unfold on_line. split; field; try split; try nra.
Qed.

Lemma rows_ends : In 90 (map angle (hi_rows p n cm)) /\ In 180 (map angle (hi_rows p n cm)) /\ In (180 - an) (map angle (hi_rows p n cm)) /\
  In (-90) (map angle (lo_rows p n cm)) /\ In (-180) (map angle (lo_rows p n cm)) /\ In (-180 + an) (map angle (lo_rows p n cm)).
Proof.
  pose proof kpi as KP. pose proof kpos as K. rewrite hi_angle, lo_angle. unfold after, before.
  assert (T : forall a t l, In t l -> t = a * k -> In a (map degrees l)).
  { intros a t l H E. apply in_map_iff. exists t. split; [|exact H]. rewrite E, <- krad. apply degrees_radians. }
  repeat match goal with |- _ /\ _ => split end.
  - apply (T 90 (PI / 2)); [|rewrite KP; field]. apply in_or_app. left. apply tlin_final. exact Hn.
  - apply (T 180 PI); [|rewrite KP; field]. apply in_or_app. right. apply in_or_app. right. apply tlin_final. exact Hn.
  - apply (T (180 - an) (PI - radians an)); [|rewrite KP, krad; field]. apply in_or_app. right. apply in_or_app. left. apply tlin_final. exact Hn.
  - apply (T (-90) (- PI / 2)); [|rewrite KP; field]. apply in_or_app. right. apply in_or_app. left. apply tlin_final. exact Hn.
  - apply (T (-180) (- PI)); [|rewrite KP; field]. apply in_or_app. left. destruct (lin_ne (- PI) (- PI + radians an) n Hn) as (N & _).
    pose proof (first_in _ N) as F. rewrite linspace_first in F by lia. exact F.
  - apply (T (-180 + an) (- PI + radians an)); [|rewrite KP, krad; field]. apply in_or_app. left. destruct (lin_ne (- PI) (- PI + radians an) n Hn) as (N & _).
    pose proof (final_in _ N) as F. rewrite linspace_final in F by exact Hn. exact F.
Qed.
End Where.

Lemma fL_cont cm A a : 0 < radians a -> a <= 90 -> continuity_pt (fL cm A) a.
Proof.
  intros H H9. assert (R9 : radians a <= PI / 2) by (rewrite <- radians_90; apply radians_le; exact H9). pose proof PI2_3_2 as P2.
  assert (Sm : 0 < sin (Rmax (radians a) (1 / 10000))).
  { apply sin_gt_0; [apply Rlt_le_trans with (radians a); [exact H|apply Rmax_l]|]. apply Rmax_case; lra. }
  apply (continuity_pt_comp (fun a => Rmax (radians a) (1 / 10000)) (fun m => (cm / 2 * sin (2 * m) + A * cos m ^ 2 / sin m) * 1)).
  - replace (fun a => Rmax (radians a) (1 / 10000)) with (fun x => (radians x + 1 / 10000 + Rabs (radians x - 1 / 10000)) / 2).
    + apply continuity_pt_mult; [|apply continuity_pt_const; intros ? ?; reflexivity].
      apply continuity_pt_plus; [unfold radians; reg|].
      apply (continuity_pt_comp (fun x => radians x - 1 / 10000) Rabs); [unfold radians; reg|apply Rcontinuity_abs].
    + apply functional_extensionality. intros y. symmetry. apply Rmax_formula.
  - set (m := Rmax (radians a) (1 / 10000)) in *. clearbody m. reg. lra.
Qed.

Lemma fL_ends p cdmax AR : extendable p -> 1 / 10000 <= radians (final (p_alpha p)) -> final (p_alpha p) < 90 ->
  let cm := cdm p cdmax AR in
  fL cm (vA p cm) (final (p_alpha p)) = final (p_cl p) /\ fL cm (vA p cm) 90 = 0 /\
  fD cm (vB p cm) (final (p_alpha p)) = final (p_cd p) /\ fD cm (vB p cm) 90 = cm.
Proof.
  intros X Ht H9 cm. assert (R9 : radians (final (p_alpha p)) < PI / 2) by (rewrite <- radians_90; apply radians_mono; exact H9).
  assert (Sh : 0 < sin (radians (final (p_alpha p)))) by (apply sin_gt_0; pose proof PI_RGT_0; lra).
  assert (Ch : 0 < cos (radians (final (p_alpha p)))) by (apply cos_gt_0; pose proof PI_RGT_0; lra).
  assert (H90 : 1 / 10000 <= radians 90) by (rewrite radians_90; lra).
  unfold fL, fD. rewrite !viterna_formula_cl, !viterna_formula_cd by assumption. unfold vA, vB. cbv zeta. set (h := radians (final (p_alpha p))) in *.
  rewrite radians_90, cos_PI2, sin_PI2. split; [rewrite sin_2a; field; lra|]. split.
  - replace (2 * (PI / 2)) with PI by field. rewrite sin_PI. field. lra.
  - split; [field; lra|field; lra].
Qed.

Lemma rows p cdmax AR cdmin n : extendable p -> 1 / 10000 <= radians (final (p_alpha p)) -> final (p_alpha p) < 90 -> -90 < first (p_alpha p) ->
  0 <= cdmin -> (2 <= n)%nat -> let cm := cdm p cdmax AR in
  exists b below above, extrapolate p cdmax AR cdmin n = Ok b /\
    p_alpha b = map angle below ++ p_alpha p ++ map angle above /\
    p_cl b = map lift below ++ p_cl p ++ map lift above /\
    p_cd b = map (fun c => Rmax c cdmin) (map drag below ++ p_cd p ++ map drag above) /\
    Forall (lower_row (final (p_alpha p)) (final (p_cl p)) (final (p_cd p)) (first (p_alpha p)) (first (p_cl p)) (first (p_cd p)) (fL cm (vA p cm)) (fD cm (vB p cm))) below /\
    Forall (upper_row (final (p_alpha p)) (final (p_cl p)) (fL cm (vA p cm)) (fD cm (vB p cm))) above /\
    (forall a, In a [-180; -180 + final (p_alpha p); -90] -> In a (map angle below)) /\
    (forall a, In a [90; 180 - final (p_alpha p); 180] -> In a (map angle above)) /\
    (first (p_alpha p) <= - final (p_alpha p) -> exists rest x, below = rest ++ [x] /\ angle x = first (p_alpha p)).
Proof.
  intros X Ht H9 H0 Hc Hn cm. destruct (extrapolate_full p cdmax AR cdmin n X Hc) as (F1 & F2 & E & _). pose proof X as (W & _).
  assert (Han : 0 < final (p_alpha p) < 90).
  { split; [|exact H9]. apply Rnot_le_lt. intros N. apply radians_le in N. replace (radians 0) with 0 in N by (unfold radians; ring). lra. }
  assert (Ha0 : -90 < first (p_alpha p) <= final (p_alpha p)).
  { split; [exact H0|]. apply (in_first_final (p_alpha p) (first (p_alpha p))); [apply W|apply first_in, W]. }
  exists (ext_polar p cdmax AR cdmin n F1 F2), (lo_rows p n cm), (hi_rows p n cm). split; [exact E|].
  cbn [ext_polar p_alpha p_cl p_cd]. fold cm. rewrite lo_angle, hi_angle, lo_lift, hi_lift, lo_drag, hi_drag. unfold ext_deg.
  split; [reflexivity|]. split; [reflexivity|]. split; [rewrite !map_app; reflexivity|].
  split; [apply lower_rows; assumption|]. split; [apply upper_rows; assumption|].
  destruct (rows_ends p n cm Hn) as (E1 & E2 & E3 & E4 & E5 & E6). rewrite hi_angle in E1, E2, E3. rewrite lo_angle in E4, E5, E6.
  split; [intros a [<-|[<-|[<-|[]]]]; assumption|]. split; [intros a [<-|[<-|[<-|[]]]]; assumption|].
  intros Hd. destruct (angles_duplicate p n Hn Hd) as (l & Hb). rewrite <- (lo_angle p n cm) in Hb.
  assert (N : lo_rows p n cm <> []) by (intros Z; rewrite Z in Hb; destruct l; discriminate Hb).
  destruct (exists_last N) as (u & x & Eu). exists u, x. split; [exact Eu|]. rewrite Eu, map_app in Hb. cbn [map] in Hb. apply app_inj_tail in Hb. apply Hb.
Qed.

(** Which row an index outside the data refers to. *)
Lemma pick2 below above p i cl cd : wf_polar p -> (i < length (map angle below ++ p_alpha p ++ map angle above))%nat ->
  cl = map lift below ++ p_cl p ++ map lift above -> cd = map drag below ++ p_cd p ++ map drag above ->
  forall a, nth i (map angle below ++ p_alpha p ++ map angle above) 0 = a -> ~ In a (p_alpha p) ->
  exists x, (In x below \/ In x above) /\ angle x = a /\ nth i cl 0 = lift x /\ nth i cd 0 = drag x.
Proof.
  intros W Hi -> -> a Ea Na. pose proof Hi as Hi'. rewrite !app_length, !map_length in Hi'.
  assert (M : forall (g : row -> R) l j, (j < length l)%nat -> nth j (map g l) 0 = g (nth j l (0, 0, 0))).
  { intros g l j Hj. rewrite nth_indep with (d' := g (0, 0, 0)) by (rewrite map_length; exact Hj). apply map_nth. }
  destruct W as (_ & _ & Lc & Ld & _).
  destruct (Nat.lt_ge_cases i (length below)) as [H|H].
  - exists (nth i below (0, 0, 0)). split; [left; apply nth_In; exact H|]. rewrite !app_nth1 in * by (rewrite map_length; exact H).
    rewrite <- Ea, !M by exact H. auto.
  - rewrite !(app_nth2 (map _ below)) in * by (rewrite map_length; exact H). rewrite !map_length in *.
    set (j := (i - length below)%nat) in *. destruct (Nat.lt_ge_cases j (length (p_alpha p))) as [H2|H2].
    + exfalso. apply Na. rewrite app_nth1 in Ea by exact H2. rewrite <- Ea. apply nth_In. exact H2.
    + rewrite !app_nth2 in * by lia. rewrite Lc, Ld in *. set (m := (j - length (p_alpha p))%nat) in *. assert (Hm : (m < length above)%nat) by (unfold m, j; lia).
      exists (nth m above (0, 0, 0)). split; [right; apply nth_In; exact Hm|]. rewrite <- Ea, !M by exact Hm. auto.
Qed.
