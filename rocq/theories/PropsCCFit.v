(** Property theorems about the accuracy of the fitted airfoil data: C99, C100. *)
From Coq Require Import Ascii String.
From Coq Require Import Reals List Bool ZArith Lra Lia.
From Verif Require Import Prelim Num FlProofs Interp InterpSpec Polar PolarSpec AeroDyn AeroDynSpec AeroDynExample StationProofs CCAirfoil CCFitSpec CCFitProofs CCFitExample.
Import ListNotations.
Open Scope R_scope.

(** C99: at a tabulated angle and Reynolds number evaluate returns the tabulated coefficients within 0.3164, 0.0317 and
    0.01001, when the spline routine keeps its promise about the sum of squares. *)
Theorem C99_grid : forall rbs alpha Re cl cd cm af i j, smooths rbs -> cc_init rbs alpha Re cl cd cm = Ok af ->
  (2 <= length Re)%nat -> (i < length alpha)%nat -> (j < length Re)%nat ->
  exists l d m, cc_evaluate af (nth i alpha 0 * PI / 180) (nth j Re 0) true = Ok (l, d, m) /\
    near cl_bound l (m_at cl i j) /\ near cd_bound d (m_at cd i j) /\
    ((0 < m_rows cm)%nat -> exists v, m = Some v /\ near cm_bound v (m_at cm i j)) /\
    (m_rows cm = 0%nat -> m = None).
Proof. exact grid_close. Qed.
Print Assumptions C99_grid.

(** C99: with data for one Reynolds number, or none, the same at every Reynolds number. *)
Theorem C99_single : forall rbs alpha Re cl cd cm af i r, smooths rbs -> flat_fit rbs -> cc_init rbs alpha Re cl cd cm = Ok af ->
  (length Re < 2)%nat -> m_cols cl = 1%nat -> m_cols cd = 1%nat -> ((0 < m_rows cm)%nat -> m_cols cm = 1%nat) -> (i < length alpha)%nat ->
  exists l d m, cc_evaluate af (nth i alpha 0 * PI / 180) r true = Ok (l, d, m) /\
    near cl_bound l (m_at cl i 0) /\ near cd_bound d (m_at cd i 0) /\
    ((0 < m_rows cm)%nat -> exists v, m = Some v /\ near cm_bound v (m_at cm i 0)) /\
    (m_rows cm = 0%nat -> m = None).
Proof. exact single_close. Qed.
Print Assumptions C99_single.

(** C99: an airfoil read from an AeroDyn file reproduces every row of every table of the file, at the Reynolds number of
    that table. The tables may list different angles. *)
Theorem C99_file : forall rbs to_float to_int file h1 h2 h3 count tlss tbs extra a b, accepts rbs -> smooths rbs -> flat_fit rbs ->
  lines_of file (h1 :: h2 :: h3 :: count :: concat tlss ++ extra) ->
  announces to_int count (Z.of_nat (length tbs)) -> Forall2 (table_lines to_float) tlss tbs ->
  Forall (fun t => wf_polar (polar_of t)) tbs -> NoDup (map tb_Re tbs) ->
  (exists t r, In t tbs /\ In r (tb_rows t) /\ row_alpha r = a) -> (exists t r, In t tbs /\ In r (tb_rows t) /\ row_alpha r = b) -> a <> b ->
  exists af, eventually (fun fuel => cc_initFromAerodynFile rbs to_float to_int fuel file) (Ok af) /\
    forall t r, In t tbs -> In r (tb_rows t) ->
      exists l d m, cc_evaluate af (row_alpha r * PI / 180) (tb_Re t * 1000000) true = Ok (l, d, Some m) /\
        near cl_bound l (row_cl r) /\ near cd_bound d (row_cd r) /\ near cm_bound m (row_cm r).
Proof. exact file_close. Qed.
Print Assumptions C99_file.

(** C100: false: a table with positive drag throughout can give negative drag at one of its own angles, because the
    smoothing is absolute. The table has drag 0.039, 0.004, 0.004, 0.004, 0.039 at -20, -10, 0, 10, 20 degrees. *)
Theorem C100_positive_refuted :
  (forall i, (i < 5)%nat -> 0 < nth i bucket_drag 0) /\ nth 2 bucket_alpha 0 = 0 /\
  forall rbs cl cm af r, tries_polynomials_first rbs -> flat_fit rbs ->
    cc_init rbs bucket_alpha [] cl (column_of bucket_drag) cm = Ok af ->
    exists l, cc_evaluate af 0 r false = Ok (l, -2 / 1000, None).
Proof.
  split; [|split; [reflexivity|intros; eapply bucket_negative; eassumption]].
  intros i H. do 5 (destruct i as [|i]; [cbn; lra|]). lia.
Qed.
Print Assumptions C100_positive_refuted.

(** C100, what holds: drag is positive at every tabulated point where the table has more than 0.0317. *)
Theorem C100_positive_partial : forall rbs alpha Re cl cd cm af i j, smooths rbs -> cc_init rbs alpha Re cl cd cm = Ok af ->
  (2 <= length Re)%nat -> (i < length alpha)%nat -> (j < length Re)%nat -> 317 / 10000 < m_at cd i j ->
  exists l d, cc_evaluate af (nth i alpha 0 * PI / 180) (nth j Re 0) false = Ok (l, d, None) /\ 0 < d.
Proof.
  intros rbs alpha Re cl cd cm af i j S E L2 Hi Hj P.
  destruct (grid_close rbs alpha Re cl cd cm af i j S E L2 Hi Hj) as (l & d & m & Ev & _ & Nd & _).
  exists l, d. unfold cc_evaluate in *. rewrite andb_false_r.
  assert (Q : sp_ev (cc_cd af) (nth i alpha 0 * PI / 180) (nth j Re 0) = d /\ sp_ev (cc_cl af) (nth i alpha 0 * PI / 180) (nth j Re 0) = l).
  { destruct (_ && _); [destruct (cc_cm af); [|discriminate]|]; apply ok_inj in Ev; apply pair_equal_spec in Ev; destruct Ev as (Ev & _);
      apply pair_equal_spec in Ev; tauto. }
  destruct Q as (-> & ->). split; [reflexivity|]. unfold near, cd_bound in Nd. apply Rabs_le_between in Nd || (unfold Rabs in Nd; destruct (Rcase_abs _) in Nd); lra.
Qed.
Print Assumptions C100_positive_partial.

(** ** Concrete instances *)
(** Bilinear interpolation keeps the promises. *)
Example C99_fitter : accepts bilinear /\ smooths bilinear /\ flat_fit bilinear.
Proof. exact (conj bilinear_accepts (conj bilinear_smooths bilinear_flat)). Qed.
(** Three angles and two Reynolds numbers. *)
Example C99_table : exists af, cc_init bilinear [-180; 0; 180] [1000000; 2000000] (mkMat 3 2 (fun i j => INR i)) (mkMat 3 2 (fun i j => 1)) (mkMat 3 2 (fun i j => INR j)) = Ok af.
Proof.
  destruct (cc_init_accepts bilinear [-180; 0; 180] [1000000; 2000000] (mkMat 3 2 (fun i j => INR i)) (mkMat 3 2 (fun i j => 1)) (mkMat 3 2 (fun i j => INR j)) bilinear_accepts)
    as (af & E & _); [cbn; lia| | |split; reflexivity|split; reflexivity|left; split; reflexivity|exists af; exact E].
  - intros i j H. cbn in *. destruct i as [|[|[|i]]], j as [|[|[|j]]]; try lia; lra.
  - intros i j H. cbn in *. destruct i as [|[|i]], j as [|[|j]]; try lia; lra.
Qed.
(** The file of the AeroDyn examples. *)
Example C99_sample : exists h1 h2 h3 count tls, let t := mkTable 2 [mkRow (-4) (-1) 1 0; mkRow 4 1 2 0] in
  lines_of sample (h1 :: h2 :: h3 :: count :: concat [tls] ++ []) /\ announces small_int count (Z.of_nat (length [t])) /\
  Forall2 (table_lines small_float) [tls] [t] /\ Forall (fun t => wf_polar (polar_of t)) [t] /\ NoDup (map tb_Re [t]).
Proof.
  destruct sample_ok as (h1 & h2 & h3 & count & tls & A & B & C). exists h1, h2, h3, count, tls.
  refine (conj A (conj B (conj (Forall2_cons _ _ C (Forall2_nil _)) (conj (Forall_cons _ _ (Forall_nil _)) _)))).
  - split; [discriminate|]. split; [|auto]. intros i j H. cbn in *. destruct i as [|[|i]], j as [|[|j]]; try lia. lra.
  - repeat constructor. intros [].
Qed.
(** A routine that tries polynomials first and fits the table of C100. *)
Example C100_fitter : tries_polynomials_first bucket_fitter /\ flat_fit bucket_fitter /\
  exists af, cc_init bucket_fitter bucket_alpha [] (column_of (repeat 0 5)) (column_of bucket_drag) (zeros 0 0) = Ok af.
Proof. exact (conj bucket_fitter_tries (conj bucket_fitter_flat bucket_fits)). Qed.
