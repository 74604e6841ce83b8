(** Property theorems about AeroDyn files and the unsteady parameters: C54, C55, C70, C71. *)
From Coq Require Import Ascii String.
From Coq Require Import Reals List Bool ZArith Permutation Lra Lia.
From Verif Require Import Prelim Polar AeroDyn AeroDynSpec InterpSpec PolarSpec AeroDynProofs UnsteadyProofs AeroDynExample.
Import ListNotations.
Open Scope R_scope.

(** C54: reading any text terminates, with an airfoil or an exception, whatever float() and int() accept. *)
Theorem C54_terminates : forall to_float to_int file,
  exists r, eventually (fun fuel => initFromAerodynFile to_float to_int fuel file) r.
Proof. exact terminates. Qed.
Print Assumptions C54_terminates.

(** C54: a well-formed file gives exactly its tables, ordered by Reynolds number; the rest of the file is ignored. *)
Theorem C54_recovers : forall to_float to_int file h1 h2 h3 count tlss tbs extra,
  lines_of file (h1 :: h2 :: h3 :: count :: concat tlss ++ extra) ->
  announces to_int count (Z.of_nat (length tbs)) -> Forall2 (table_lines to_float) tlss tbs -> tbs <> [] ->
  exists af, eventually (fun fuel => initFromAerodynFile to_float to_int fuel file) (Ok af) /\
    Permutation (map polar_of tbs) af /\ sorted_by_Re af /\ (forall r, at_Re r af = at_Re r (map polar_of tbs)).
Proof. exact recovers. Qed.
Print Assumptions C54_recovers.

(** C54: a row with fewer than four numbers or with a word that is no number, or the end of the file before EOT. *)
Theorem C54_bad_row : forall to_float to_int file h1 h2 h3 count tlss tbs hd re lrows rs tail n,
  lines_of file (h1 :: h2 :: h3 :: count :: concat tlss ++ hd ++ lrows ++ tail) ->
  announces to_int count n -> (Z.of_nat (length tbs) < n)%Z ->
  Forall2 (table_lines to_float) tlss tbs -> table_head to_float hd re -> Forall2 (row_line to_float) lrows rs ->
  tail = [] \/ (exists l rest, tail = l :: rest /\ bad_line to_float l) ->
  eventually (fun fuel => initFromAerodynFile to_float to_int fuel file) (Raise ValueError).
Proof. exact broken. Qed.
Print Assumptions C54_bad_row.

(** C54: fewer tables than announced, or none announced. *)
Theorem C54_missing_table : forall to_float to_int file h1 h2 h3 count tlss tbs n,
  lines_of file (h1 :: h2 :: h3 :: count :: concat tlss) ->
  announces to_int count n -> (Z.of_nat (length tbs) < n)%Z -> Forall2 (table_lines to_float) tlss tbs ->
  eventually (fun fuel => initFromAerodynFile to_float to_int fuel file) (Raise IndexError).
Proof. exact missing_table. Qed.
Print Assumptions C54_missing_table.
Theorem C54_no_tables : forall to_float to_int file h1 h2 h3 count ls n,
  lines_of file (h1 :: h2 :: h3 :: count :: ls) -> announces to_int count n -> (n <= 0)%Z ->
  eventually (fun fuel => initFromAerodynFile to_float to_int fuel file) (Raise IndexError).
Proof. exact no_tables. Qed.
Print Assumptions C54_no_tables.

(** C54: a fourth line without words, or whose first word is no integer. *)
Theorem C54_bad_count : forall to_float to_int file h1 h2 h3 count ls ws,
  lines_of file (h1 :: h2 :: h3 :: count :: ls) -> fields count ws ->
  (ws = [] -> eventually (fun fuel => initFromAerodynFile to_float to_int fuel file) (Raise IndexError)) /\
  (forall w ws', ws = w :: ws' -> to_int w = None ->
     eventually (fun fuel => initFromAerodynFile to_float to_int fuel file) (Raise ValueError)).
Proof. exact bad_count. Qed.
Print Assumptions C54_bad_count.

(** C55: false for every airfoil with an angle in the linear range. Whatever number formatting is used (without
    newlines), writing succeeds and reading the file back raises IndexError. *)
Theorem C55_read_back_refuted : forall fmt_f fmt_d pad40 polyfit raw_interp to_float to_int af,
  (forall x, ~ In newline (fmt_f x)) -> (forall n, ~ In newline (fmt_d n)) ->
  (forall s, ~ In newline s -> ~ In newline (pad40 s)) ->
  (forall x y, x <> [] -> length x = length y -> exists mc, polyfit x y = Ok mc) ->
  af <> [] -> sorted_by_Re af -> Forall wf_polar af ->
  (exists p a, In p af /\ In a (p_alpha p) /\ -5 <= a <= 5) ->
  exists file,
    writeToAerodynFile fmt_f fmt_d pad40 (fun p => unsteadyparam polyfit raw_interp p (-5) 5) af = Ok file /\
    eventually (fun fuel => initFromAerodynFile to_float to_int fuel file) (Raise IndexError).
Proof. exact unreadable. Qed.
Print Assumptions C55_read_back_refuted.

(** C70: false as to the unit of the angle of minimum drag: it is reported in radians (the file labels it "deg"), so it
    is wrong unless that angle is zero. *)
Theorem C70_units_refuted : forall polyfit raw_interp p lo hi m c,
  wf_polar p -> (10 <= length (p_alpha p))%nat -> ten_values (p_cl p) ->
  polyfit (map fst (normal_rows p lo hi)) (map snd (normal_rows p lo hi)) = Ok (m, c) -> m <> 0 ->
  exists l i, unsteadyparam polyfit raw_interp p lo hi = Ok l /\
    (i < length (p_alpha p))%nat /\ Forall (fun d => nth i (p_cd p) 0 <= d) (p_cd p) /\
    nth 6 l 0 = radians (nth i (p_alpha p) 0) /\ nth 7 l 0 = nth i (p_cd p) 0 /\
    (nth i (p_alpha p) 0 <> 0 -> nth 6 l 0 <> nth i (p_alpha p) 0).
Proof. exact wrong_unit. Qed.
Print Assumptions C70_units_refuted.

(** C70, what holds: the other parameters fit together. The angle of zero normal force is where the fitted line vanishes,
    the slope is the fitted slope, the normal force at stall is the line's value at the reported stall angle, and the
    minimum drag is the smallest drag. *)
Theorem C70_parameters_partial : forall polyfit raw_interp p lo hi m c,
  wf_polar p -> (10 <= length (p_alpha p))%nat -> ten_values (p_cl p) ->
  polyfit (map fst (normal_rows p lo hi)) (map snd (normal_rows p lo hi)) = Ok (m, c) -> m <> 0 ->
  exists stall zero cnu cnl i,
    unsteadyparam polyfit raw_interp p lo hi =
      Ok [0; stall; zero; m; cnu; cnl; radians (nth i (p_alpha p) 0); nth i (p_cd p) 0] /\
    m * radians zero + c = 0 /\ cnu = m * radians (stall - zero) /\
    (i < length (p_alpha p))%nat /\ Forall (fun d => nth i (p_cd p) 0 <= d) (p_cd p).
Proof. exact unsteady_spec. Qed.
Print Assumptions C70_parameters_partial.

(** C70: the stall angle is found from the excess of the fitted line over the interpolated normal force at 0, 1, .., 39
    degrees, by interpolating the angle at an excess of 0.05; the lower one, known only through its normal force, from
    the opposite excess at 5, 4, .., -39 degrees. *)
Theorem C70_stall_partial : forall polyfit raw_interp p lo hi m c,
  wf_polar p -> (10 <= length (p_alpha p))%nat -> ten_values (p_cl p) ->
  polyfit (map fst (normal_rows p lo hi)) (map snd (normal_rows p lo hi)) = Ok (m, c) -> m <> 0 ->
  exists l gU dU gL dL, unsteadyparam polyfit raw_interp p lo hi = Ok l /\
    deviations p (fun a => m * a + c) 1 40 gU dU /\ deviations p (fun a => m * a + c) (-1) 45 gL dL /\
    (forall k, (k < 40)%nat -> nth k gU 0 = radians (INR k)) /\ (forall k, (k < 45)%nat -> nth k gL 0 = radians (5 - INR k)) /\
    radians (nth 1 l 0) = raw_interp (1 / 20) dU gU /\
    nth 4 l 0 = m * raw_interp (1 / 20) dU gU + c /\ nth 5 l 0 = m * raw_interp (1 / 20) dL gL + c.
Proof. exact stall_spec. Qed.
Print Assumptions C70_stall_partial.

(** C71: false: with no row in the linear range, but ten different lift values elsewhere, the fit of an empty set of
    points raises instead of zeros being returned. *)
Theorem C71_zeros_refuted : forall polyfit raw_interp p lo hi e,
  wf_polar p -> (10 <= length (p_alpha p))%nat -> ten_values (p_cl p) ->
  Forall (fun a => a < lo \/ hi < a) (p_alpha p) -> polyfit [] [] = Raise e ->
  unsteadyparam polyfit raw_interp p lo hi = Raise e.
Proof. exact unsteady_fails. Qed.
Print Assumptions C71_zeros_refuted.

(** C71, what holds: fewer than ten rows, or fewer than ten different lift values, give zeros. *)
Theorem C71_zeros_partial : forall polyfit raw_interp p lo hi,
  (length (p_alpha p) < 10)%nat \/ few_values (p_cl p) ->
  unsteadyparam polyfit raw_interp p lo hi = Ok [0; 0; 0; 0; 0; 0; 0; 0].
Proof. exact unsteady_zero. Qed.
Print Assumptions C71_zeros_partial.

(** ** Concrete instances *)
(** A file with one table of two rows: reading it gives that table. *)
Example ex_read : initFromAerodynFile small_float small_int 10 sample =
  Some (Ok [mkPolar (2 * 1000000) [-4; 4] [-1; 1] [1; 2] [0; 0]]).
Proof. vm_compute. reflexivity. Qed.

(** The hypotheses of C54_recovers hold for that file. *)
Example ex_lines : exists h1 h2 h3 count tls,
  lines_of sample (h1 :: h2 :: h3 :: count :: concat [tls] ++ []) /\
  announces small_int count 1 /\
  table_lines small_float tls (mkTable 2 [mkRow (-4) (-1) 1 0; mkRow 4 1 2 0]).
Proof. exact sample_ok. Qed.

(** A file whose only row has three numbers. *)
Example ex_short : initFromAerodynFile small_float small_int 10
  (line "h" ++ line "h" ++ line "h" ++ line "1" ++ line "2" ++ concat (repeat (line "0") 8) ++ line "4 1 2" ++ lit "EOT") =
  Some (Raise ValueError).
Proof. vm_compute. reflexivity. Qed.

(** Files whose fourth line is blank, or starts with a word that is no integer. *)
Example ex_count : exists h1 h2 h3 count ls w, 
  lines_of (line "h" ++ line "h" ++ line "h" ++ line "x 1" ++ line "2") (h1 :: h2 :: h3 :: count :: ls) /\
  fields count [w; lit "1"] /\ small_int w = None /\
  lines_of (line "h" ++ line "h" ++ line "h" ++ line " " ++ line "2") (h1 :: h2 :: h3 :: lit " " :: ls) /\ fields (lit " ") [].
Proof.
  exists (lit "h"), (lit "h"), (lit "h"), (lit "x 1"), [lit "2"], (lit "x"). split; [|split; [|split; [|split]]].
  - unfold line. rewrite <- !app_assoc. cbn [app]. repeat (apply lines_more; [no_nl|]). apply lines_none.
  - apply fields_eq. reflexivity.
  - reflexivity.
  - unfold line. rewrite <- !app_assoc. cbn [app]. repeat (apply lines_more; [no_nl|]). apply lines_none.
  - apply fields_eq. reflexivity.
Qed.

(** Data for C70: eleven rows, angles -5..5, drag smallest at 3 degrees. *)
Example ex_unsteady : exists l, unsteadyparam (fun _ _ => Ok (6, 0)) (fun _ _ _ => 0) ex_u (-5) 5 = Ok l /\
  nth 7 l 0 = 1/100 /\ nth 6 l 0 = radians 3 /\ nth 6 l 0 <> 3.
Proof. exact ex_u_unit. Qed.

(** The premises of the theorems on C70 hold for these data. *)
Example ex_stall : wf_polar ex_u /\ (10 <= length (p_alpha ex_u))%nat /\ ten_values (p_cl ex_u) /\ 6 <> 0.
Proof. split; [exact ex_u_wf|]. split; [cbn; lia|]. split; [exact ex_u_ten|lra]. Qed.

(** Data for C71: ten rows from 11 to 20 degrees. *)
Example ex_no_linear : unsteadyparam (fun x y => match x with [] => Raise TypeError | _ => Ok (1, 0) end) (fun _ _ _ => 0) ex_v (-5) 5 =
  Raise TypeError.
Proof. exact ex_v_fails. Qed.

(** Data for C55: one polar, numbers printed as a single character. *)
Example ex_written : exists file,
  writeToAerodynFile (fun _ => lit "0") (fun _ => lit "1") (fun s => s) (fun p => unsteadyparam (fun _ _ => Ok (6, 0)) (fun _ _ _ => 0) p (-5) 5) [ex_u] = Ok file /\
  eventually (fun fuel => initFromAerodynFile small_float small_int fuel file) (Raise IndexError).
Proof. exact ex_u_written. Qed.
