(** Property theorems about extrapolated and corrected polars: C50-C53. *)
From Coq Require Import Reals List Bool ZArith Lra Lia.
From Verif Require Import Prelim Interp Polar PolarExt InterpSpec PolarSpec PolarProofs PolarExtFacts.
Import ListNotations.
Open Scope R_scope.

(** C50: the extrapolated polar runs from -180 to 180 degrees, contains the input angles, lift and (floored)
    drag as one block at one position, has one coefficient per angle, and its drag is at least cdmin. *)
Theorem C50_extrapolate_structure : forall p cdmax AR cdmin n, extendable p -> final (p_alpha p) < 90 -> 0 <= cdmin -> (2 <= n)%nat ->
  exists b k m, extrapolate p cdmax AR cdmin n = Ok b /\
    p_Re b = p_Re p /\ first (p_alpha b) = -180 /\ final (p_alpha b) = 180 /\
    block_at (p_alpha b) k (p_alpha p) m /\ block_at (p_cl b) k (p_cl p) m /\
    block_at (p_cd b) k (map (fun c => Rmax c cdmin) (p_cd p)) m /\
    Forall (fun c => cdmin <= c) (p_cd b) /\
    (forall q, length (col q b) = length (p_alpha b)).
Proof. exact (fun p cdmax AR cdmin n X _ => structure p cdmax AR cdmin n X). Qed.
Print Assumptions C50_extrapolate_structure.

(** C50: it raises when the data leave [-90, 90] or cdmin is negative. *)
Theorem C50_extrapolate_raises : forall p cdmax AR cdmin n, wf_polar p ->
  cdmin < 0 \/ 90 < final (p_alpha p) \/ first (p_alpha p) < -90 ->
  extrapolate p cdmax AR cdmin n = Raise OtherException.
Proof. exact PolarExtProofs.extrapolate_raises. Qed.
Print Assumptions C50_extrapolate_raises.

(** C50: Airfoil.extrapolate extrapolates each polar with 15 points per segment and keeps their order. *)
Theorem C50_airfoil : forall af cdmax AR cdmin, af <> [] -> sorted_by_Re af -> Forall extendable af -> 0 <= cdmin ->
  exists af', airfoil_extrapolate af cdmax AR cdmin = Ok af' /\
    Forall2 (fun p b => extrapolate p cdmax AR cdmin 15 = Ok b) af af'.
Proof. exact airfoil_ext. Qed.
Print Assumptions C50_airfoil.

(** C51: false for data that reach down to minus the upper end, in particular data symmetric about zero: for all
    of them the first data angle appears twice in a row. *)
Theorem C51_increasing_refuted : forall p cdmax AR cdmin n, extendable p -> 0 <= cdmin -> (2 <= n)%nat ->
  first (p_alpha p) <= - final (p_alpha p) ->
  exists b i, extrapolate p cdmax AR cdmin n = Ok b /\ (S i < length (p_alpha b))%nat /\
    nth i (p_alpha b) 0 = first (p_alpha p) /\ nth (S i) (p_alpha b) 0 = first (p_alpha p).
Proof. exact not_strictly. Qed.
Print Assumptions C51_increasing_refuted.

(** C51, what holds: all other data give strictly increasing angles. *)
Theorem C51_increasing_partial : forall p cdmax AR cdmin n, extendable p -> 0 <= cdmin -> (2 <= n)%nat ->
  0 < final (p_alpha p) < 90 -> - final (p_alpha p) < first (p_alpha p) ->
  exists b, extrapolate p cdmax AR cdmin n = Ok b /\ increasing (p_alpha b).
Proof. exact strictly. Qed.
Print Assumptions C51_increasing_partial.

(** C52: beyond the last data angle, up to 90 degrees, lift and drag follow two functions that do not depend on the
    number of points, are continuous at the last data angle and take the data's values there. *)
Theorem C52_lift_drag_join : forall p cdmax AR, extendable p ->
  1 / 10000 <= radians (final (p_alpha p)) -> final (p_alpha p) < 90 ->
  exists L D, continuity_pt L (final (p_alpha p)) /\ continuity_pt D (final (p_alpha p)) /\
    L (final (p_alpha p)) = final (p_cl p) /\ D (final (p_alpha p)) = final (p_cd p) /\
    forall cdmin n, 0 <= cdmin -> (2 <= n)%nat ->
    exists b k m near, extrapolate p cdmax AR cdmin n = Ok b /\ near <> [] /\
      Forall (fun a => final (p_alpha p) < a <= 90) near /\
      block_at (p_alpha b) k (p_alpha p ++ near) m /\
      block_at (p_cl b) k (p_cl p ++ map L near) m /\
      block_at (p_cd b) k (map (fun c => Rmax c cdmin) (p_cd p ++ map D near)) m.
Proof. exact joins. Qed.
Print Assumptions C52_lift_drag_join.

(** C52, moment: false when an end angle is a multiple of ten. At the upper end the data's own moment is replaced
    by 0; below the lower end the moment runs to 0 instead of the data's value. *)
Theorem C52_moment_refuted : forall p cdmax AR cdmin n, extendable p -> moment_regular p -> 0 <= cdmin ->
  exists b, extrapolate p cdmax AR cdmin n = Ok b /\ In (final (p_alpha p)) (p_alpha b) /\
    (multiple_of_ten (final (p_alpha p)) ->
       forall i, (i < length (p_alpha b))%nat -> nth i (p_alpha b) 0 = final (p_alpha p) -> nth i (p_cm b) 0 = 0) /\
    (multiple_of_ten (first (p_alpha p)) -> exists v,
       forall i, (i < length (p_alpha b))%nat -> first (p_alpha p) - 10 <= nth i (p_alpha b) 0 < first (p_alpha p) ->
         nth i (p_cm b) 0 * 10 = v * (first (p_alpha p) - nth i (p_alpha b) 0)).
Proof. exact (fun p cdmax AR cdmin n X _ => moment_lost p cdmax AR cdmin n X). Qed.
Print Assumptions C52_moment_refuted.

(** C52, moment, what holds: at an end that is not a multiple of ten the moment continues linearly from the data's
    end value up to the next multiple of ten, and the data's moments are kept. *)
Theorem C52_moment_partial : forall p cdmax AR cdmin n, extendable p -> moment_regular p -> 0 <= cdmin ->
  exists b k m, extrapolate p cdmax AR cdmin n = Ok b /\
    block_at (p_alpha b) k (p_alpha p) m /\ length (p_cm b) = length (p_alpha b) /\
    (~ multiple_of_ten (final (p_alpha p)) ->
       block_at (p_cm b) k (p_cm p) m /\
       exists c v, multiple_of_ten c /\ final (p_alpha p) < c <= final (p_alpha p) + 10 /\
       forall i, (i < length (p_alpha b))%nat -> final (p_alpha p) <= nth i (p_alpha b) 0 < c ->
         (nth i (p_cm b) 0 - final (p_cm p)) * (c - final (p_alpha p)) =
         (v - final (p_cm p)) * (nth i (p_alpha b) 0 - final (p_alpha p))) /\
    (~ multiple_of_ten (first (p_alpha p)) ->
       exists c v, multiple_of_ten c /\ first (p_alpha p) - 10 <= c < first (p_alpha p) /\
       forall i, (i < length (p_alpha b))%nat -> c <= nth i (p_alpha b) 0 < first (p_alpha p) ->
         (first (p_cm p) - nth i (p_cm b) 0) * (first (p_alpha p) - c) =
         (first (p_cm p) - v) * (first (p_alpha p) - nth i (p_alpha b) 0)).
Proof. exact (fun p cdmax AR cdmin n X _ => moment p cdmax AR cdmin n X). Qed.
Print Assumptions C52_moment_partial.

(** C53: for every line-fitting routine. Reynolds number, angles and moment are kept; lift on the fitted line is kept;
    the full Du-Selig correction applies up to alpha_max_corr and fades quadratically to none at 90 degrees; drag at
    zero angle is kept. *)
Theorem C53_correction : forall polyfit p rR cr tsr amc almin almax m c, wf_polar p -> 0 < cr -> tsr <> 0 -> rR <> 0 ->
  polyfit (map fst (linear_rows p almin almax)) (map snd (linear_rows p almin almax)) = Ok (m, c) -> m <> 0 ->
  exists b, correction3D polyfit p rR cr tsr amc almin almax = Ok b /\
    p_Re b = p_Re p /\ p_alpha b = p_alpha p /\ p_cm b = p_cm p /\
    length (p_cl b) = length (p_alpha p) /\ length (p_cd b) = length (p_alpha p) /\
    exists f fd,
      (let x := Rpower cr (sqrt (1 + tsr ^ 2) / (tsr * rR)) in
       m * f = 16 / 10 * cr / (1267 / 10000) * ((1 - x) / (1 + x)) - 1) /\
      (let x := Rpower cr (sqrt (1 + tsr ^ 2) / (tsr * rR) / 2) in
       m * fd = 16 / 10 * cr / (1267 / 10000) * ((1 - x) / (1 + x)) - 1) /\
    forall i, (i < length (p_alpha p))%nat ->
      let line := m * radians (nth i (p_alpha p) 0) + c in
      let cl := nth i (p_cl p) 0 in
      let cd := nth i (p_cd p) 0 in
      (cl = line -> nth i (p_cl b) 0 = cl) /\
      (nth i (p_alpha p) 0 <= amc -> nth i (p_cl b) 0 = cl + f * (line - cl)) /\
      (amc < nth i (p_alpha p) 0 -> amc < 90 ->
         nth i (p_cl b) 0 = cl + f * (line - cl) * ((90 - nth i (p_alpha p) 0) / (90 - amc)) ^ 2) /\
      (nth i (p_alpha p) 0 = 90 -> amc < 90 -> nth i (p_cl b) 0 = cl) /\
      (nth i (p_alpha p) 0 = 0 -> nth i (p_cd b) 0 = cd) /\
      (forall cd0, value CD p 0 cd0 -> nth i (p_cd b) 0 = cd + fd * (cd - cd0)).
Proof. exact (fun polyfit p rR cr tsr amc almin almax m c W _ => correction polyfit p rR cr tsr amc almin almax m c W). Qed.
Print Assumptions C53_correction.

(** A rotor that stands still, and the axis itself, have no correction: the division by the tip-speed ratio or the radius raises,
    for one polar and for an airfoil of at least one. *)
Theorem C53_no_rotation : forall polyfit rR cr tsr amc almin almax, tsr = 0 \/ rR = 0 ->
  (forall p, correction3D polyfit p rR cr tsr amc almin almax = Raise ZeroDivisionError) /\
  (forall p af, airfoil_correction3D polyfit (p :: af) rR cr tsr amc almin almax = Raise ZeroDivisionError).
Proof.
  intros polyfit rR cr tsr amc almin almax H.
  assert (G : forall p, correction3D polyfit p rR cr tsr amc almin almax = Raise ZeroDivisionError).
  { intros p. unfold correction3D. cbv zeta. destruct (reqb tsr 0) eqn:E; [reflexivity|].
    destruct H as [H|H]; [rewrite (proj2 (reqb_true tsr 0) H) in E; discriminate|]. rewrite (proj2 (reqb_true rR 0) H). reflexivity. }
  split; [exact G|]. intros p af. unfold airfoil_correction3D. cbn [mapM]. rewrite G. reflexivity.
Qed.
Print Assumptions C53_no_rotation.

(** ** Concrete instances of the hypotheses *)
Lemma reg_lit a : 0 < a < 90 ->
  moment_regular (mkPolar 1000000 [-4; 0; a] [-1/2; 0; 1] [1/100; 1/100; 4/100] [1/50; 0; -1/25]).
Proof.
  intros Ha. unfold moment_regular, final. cbn [p_alpha p_cl p_cd length nth Nat.sub].
  repeat match goal with |- _ /\ _ => split end; try lra.
  - assert (0 < cos (radians a)) by (apply cos_gt_0; unfold radians; pose proof PI_RGT_0; nra).
    assert (0 < sin (radians a)) by (apply sin_gt_0; unfold radians; pose proof PI_RGT_0; nra). lra.
  - intros [|[|i]] Hi; [left; cbn; lra|right; cbn; lra|lia].
Qed.
Lemma ex_e_reg : moment_regular ex_e. Proof. apply (reg_lit 12). lra. Qed.
Lemma ex_t_reg : moment_regular ex_t. Proof. apply (reg_lit 10). lra. Qed.

Example ex_extendable : extendable ex_e /\ 0 < final (p_alpha ex_e) < 90 /\
  - final (p_alpha ex_e) < first (p_alpha ex_e) /\
  1 / 10000 <= radians (final (p_alpha ex_e)) /\ moment_regular ex_e /\ ~ multiple_of_ten (final (p_alpha ex_e)) /\ ~ multiple_of_ten (first (p_alpha ex_e)).
Proof.
  split; [apply ex_e_ok|]. unfold final, first. cbn [p_alpha ex_e length nth Nat.sub].
  repeat match goal with |- _ /\ _ => split end; try lra; [|apply ex_e_reg|apply not_ten_12|apply not_ten_m4].
  unfold radians. pose proof PI2_3_2. lra.
Qed.

(** Data ending at 10 degrees with moment -1/25 there: the extrapolated polar says 0. *)
Example ex_moment_lost : exists b i, extrapolate ex_t (13/10) None (1/1000) 15 = Ok b /\
  nth i (p_alpha b) 0 = 10 /\ final (p_cm ex_t) = -1/25 /\ nth i (p_cm b) 0 = 0.
Proof.
  destruct (C52_moment_refuted ex_t (13/10) None (1/1000) 15 ex_t_ok ex_t_reg ltac:(lra)) as (b & E & I & H & _).
  apply (In_nth _ _ 0) in I. destruct I as (i & Hi & Ei). exists b, i. split; [exact E|]. split; [exact Ei|].
  split; [reflexivity|]. apply H; [exists 1%Z; unfold final; cbn; lra|exact Hi|exact Ei].
Qed.

(** Symmetric data: the angle -12 appears twice. *)
Example ex_symmetric : exists b i, extrapolate ex_y (13/10) None (1/1000) 15 = Ok b /\
  nth i (p_alpha b) 0 = -12 /\ nth (S i) (p_alpha b) 0 = -12.
Proof.
  destruct (C51_increasing_refuted ex_y (13/10) None (1/1000) 15 ex_y_ok ltac:(lra) ltac:(lia)) as (b & i & E & _ & A & B).
  - unfold first, final. cbn. lra.
  - exists b, i. auto.
Qed.

Example ex_correction : exists b, correction3D (fun _ _ => Ok (6, 0)) ex_e (1/2) (1/10) 7 30 (-5) 5 = Ok b /\
  nth 1 (p_cl b) 0 = 0 /\ nth 1 (p_cd b) 0 = 1/100.
Proof.
  destruct (C53_correction (fun _ _ => Ok (6, 0)) ex_e (1/2) (1/10) 7 30 (-5) 5 6 0) as (b & E & _ & _ & _ & _ & _ & f & fd & _ & _ & H);
    try lra; [apply ex_e_ok|reflexivity|].
  exists b. split; [exact E|]. specialize (H 1%nat ltac:(cbn; lia)). cbv zeta in H. destruct H as (H1 & _ & _ & _ & H2 & _).
  split; [apply H1|apply H2]; cbn; unfold radians; lra.
Qed.
