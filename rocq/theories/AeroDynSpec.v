(** Specification vocabulary for AeroDyn files (C54, C55, C70, C71): lines, fields, tables; independent of the reader. *)
From Coq Require Import Ascii String.
From Coq Require Import Reals List ZArith Bool.
From Verif Require Import Prelim InterpSpec Polar AeroDyn.
Import ListNotations.
Open Scope R_scope.

(** The lines of a text; the last one may lack its newline. *)
Inductive lines_of : text -> list text -> Prop :=
| lines_none : lines_of [] []
| lines_last l : l <> [] -> ~ In newline l -> lines_of l [l]
| lines_more l t ls : ~ In newline l -> lines_of t ls -> lines_of (l ++ newline :: t) (l :: ls).

(** Blank characters: tab, newline, vertical tab, form feed, carriage return, separators 28-31, space. *)
Definition blank (c : ascii) : Prop :=
  In c ["009"; "010"; "011"; "012"; "013"; "028"; "029"; "030"; "031"; "032"]%char.

(** The words of a line: non-empty runs of non-blank characters. *)
Inductive fields : text -> list text -> Prop :=
| fields_none l : Forall blank l -> fields l []
| fields_word pre w rest ws : Forall blank pre -> w <> [] -> Forall (fun c => ~ blank c) w ->
    (rest = [] \/ exists c rest', rest = c :: rest' /\ blank c) ->
    fields rest ws -> fields (pre ++ w ++ rest) (w :: ws).

Definition mentions (pat l : text) : Prop := exists a b, l = a ++ pat ++ b.

(** A table: Reynolds number in millions, and its rows. *)
Record row := mkRow { row_alpha : R; row_cl : R; row_cd : R; row_cm : R }.
Record table := mkTable { tb_Re : R; tb_rows : list row }.

Definition polar_of (t : table) : polar :=
  mkPolar (tb_Re t * 1000000) (map row_alpha (tb_rows t)) (map row_cl (tb_rows t)) (map row_cd (tb_rows t))
    (map row_cm (tb_rows t)).

Section Meaning.
(** What a word means as a number, if anything. *)
Variable number : text -> option R.

Definition starts_with_number (l : text) (x : R) : Prop :=
  exists w ws, fields l (w :: ws) /\ number w = Some x.

Definition row_line (l : text) (r : row) : Prop :=
  ~ mentions (lit "EOT") l /\
  exists w1 w2 w3 w4 ws, fields l (w1 :: w2 :: w3 :: w4 :: ws) /\
    number w1 = Some (row_alpha r) /\ number w2 = Some (row_cl r) /\
    number w3 = Some (row_cd r) /\ number w4 = Some (row_cm r) /\ Forall (fun w => number w <> None) ws.

(** A line that is neither a row of at least four numbers nor the end of the table. *)
Definition bad_line (l : text) : Prop :=
  ~ mentions (lit "EOT") l /\
  exists ws, fields l ws /\ ((length ws < 4)%nat \/ Exists (fun w => number w = None) ws).

(** The nine lines before the rows. *)
Definition table_head (ls : list text) (re : R) : Prop :=
  exists l params, ls = l :: params /\ starts_with_number l re /\ length params = 8%nat /\
    Forall (fun l => exists x, starts_with_number l x) params.

(** The lines of a whole table. *)
Definition table_lines (ls : list text) (t : table) : Prop :=
  exists hd rows eot, ls = hd ++ rows ++ [eot] /\ table_head hd (tb_Re t) /\ Forall2 row_line rows (tb_rows t) /\
    mentions (lit "EOT") eot.
End Meaning.

(** The fourth line announces n tables. *)
Definition announces (whole : text -> option Z) (l : text) (n : Z) : Prop :=
  exists w ws, fields l (w :: ws) /\ whole w = Some n.

(** The routine gives this answer however long it is allowed to run, from some point on. *)
Definition eventually {A} (run : nat -> option A) (a : A) : Prop :=
  exists n, forall fuel, (n <= fuel)%nat -> run fuel = Some a.

(** At least ten different values / fewer than ten different values occur in the list. *)
Definition ten_values (l : list R) : Prop := exists s, NoDup s /\ length s = 10%nat /\ incl s l.
Definition few_values (l : list R) : Prop := exists s, (length s < 10)%nat /\ incl l s.

(** The normal force coefficients of all rows, their angles in radians. *)
Definition normal_column (p : polar) : list R :=
  map (fun i => let a := radians (nth i (p_alpha p) 0) in nth i (p_cl p) 0 * cos a + nth i (p_cd p) 0 * sin a)
    (seq 0 (length (p_alpha p))).
(** dev lists, over the grid of n angles, the excess of the line over the interpolated normal force, times sign. *)
Definition deviations (p : polar) (line : R -> R) (sign : R) (n : nat) (grid dev : list R) : Prop :=
  length grid = n /\ length dev = n /\
  forall k, (k < n)%nat -> exists cn, polygon_value (map radians (p_alpha p)) (normal_column p) (nth k grid 0) cn /\
    nth k dev 0 = sign * (line (nth k grid 0) - cn).

(** Angle (radians) and normal force coefficient of the rows with angle between lo and hi degrees. *)
Definition normal_rows (p : polar) (lo hi : R) : list (R * R) :=
  map (fun i => let a := radians (nth i (p_alpha p) 0) in
                (a, nth i (p_cl p) 0 * cos a + nth i (p_cd p) 0 * sin a))
    (filter (fun i => rleb lo (nth i (p_alpha p) 0) && rleb (nth i (p_alpha p) 0) hi)
       (seq 0 (length (p_alpha p)))).
