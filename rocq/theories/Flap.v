(** Model of CCAirfoil.af_flap_coords, ccblade.py:365-455: the files it writes, runs XFOIL on, reads and deletes.

    Simplifications: the working directory is a map from file names to texts (no subdirectories, no permissions; a name with a
    "/" is just a name). [os.system] is any function of the command and the directory; [str] of the numbers, the text that
    numpy.savetxt writes and the table that numpy.loadtxt reads are arguments of the routine. The comments of the file and the
    unused name saveFlnmPolar (lines 380, 385) are left out. *)
From Coq Require Import Ascii String.
From Coq Require Import Reals List Bool Arith.
From Verif Require Import Prelim AeroDyn.
Import ListNotations.
Open Scope R_scope.

(** * Files *)
Definition dir := text -> option text.
Definition teq (a b : text) : bool := if list_eq_dec ascii_dec a b then true else false.
(** os.path.exists, line 391 *)
Definition exists_ (d : dir) (f : text) : bool := match d f with Some _ => true | None => false end.
(** os.remove of an existing file, line 392 *)
Definition remove (d : dir) (f : text) : dir := fun g => if teq g f then None else d g.
(** open (f, "w"), write, close *)
Definition write (d : dir) (f t : text) : dir := fun g => if teq g f then Some t else d g.
(** if os.path.exists (f): os.remove (f), lines 391-398 and 447-454 *)
Definition clean (d : dir) (f : text) : dir := if exists_ d f then remove d f else d.

(** * The names, lines 375-388 *)
Record names := mkNames { n_coords : text; n_save : text; n_script : text; n_null : text }.

(** [pid]: None unless multi_run or MPI_run. *)
Definition file_names (AFName df : text) (pid : option text) : names :=
  match pid with
  | Some p =>
      mkNames (lit "profilecoords_p" ++ p ++ lit ".dat")
              (AFName ++ lit "_" ++ df ++ lit "_Airfoil_p" ++ p ++ lit ".txt")
              (lit "xfoil_input_p" ++ p ++ lit ".txt")
              (lit "NUL_" ++ p)
  | None =>
      mkNames (lit "profilecoords.dat") (AFName ++ lit "_" ++ df ++ lit "_Airfoil.txt") (lit "xfoil_input.txt") (lit "NUL")
  end.

(** * The XFOIL input, lines 407-434: one entry for each end of line written *)
Definition script_lines (AFName df xc yt numNodes : text) (n : names) : list text :=
  [ lit "PLOP "; lit " G "; [];
    lit "LOAD "; n_coords n; AFName;
    lit "GDES "; lit "FLAP "; xc; lit "999"; yt; df; lit "NAME "; AFName ++ lit "_" ++ df; lit "EXEC "; lit " ";
    lit "PPAR"; lit "N "; numNodes; lit "T "; lit "0.5"; []; [];
    lit "PSAV "; n_save n ++ lit " "; lit " ";
    lit "QUIT " ].
Definition script (AFName df xc yt numNodes : text) (n : names) : text :=
  concat (map (fun l => l ++ [newline]) (script_lines AFName df xc yt numNodes n)).

(** * The routine *)
(** What it uses and sets of the object: x, y, AFName; af_flap_xcoords, af_flap_ycoords, ctrl. *)
Record flap_obj := mkFlapObj { fo_x : list R; fo_y : list R; fo_name : text; fo_flap : option (list R * list R); fo_ctrl : option R }.

Section Flap.
Variable str : R -> text.
(** numpy.savetxt (.., fmt = ["%f", "%f"]) of two columns. *)
Variable savetxt : list R -> list R -> text.
(** numpy.loadtxt: the rows of the table, all of one length. *)
Variable loadtxt : text -> res (list (list R)).
Variable system : text -> dir -> dir.

(** flap_coords[:, 0], flap_coords[:, 1], lines 442-443: loadtxt gives an array of one dimension for less than two rows or columns. *)
Definition two_columns (rows : list (list R)) : res (list R * list R) :=
  if andb (Nat.leb 2 (length rows)) (Nat.leb 2 (length (hd [] rows)))
  then Ok (map (fun r => nth 0 r 0) rows, map (fun r => nth 1 r 0) rows)
  else Raise IndexError.

(** os.system (xfoil_path + " < " + xfoilFlnm + " > " + NUL_fname), line 438 *)
Definition command (xfoil_path : text) (n : names) : text :=
  xfoil_path ++ lit " < " ++ n_script n ++ lit " > " ++ n_null n.

(** np.loadtxt (saveFlnmAF) and the columns, lines 441-443; a missing file is an OSError. *)
Definition read_back (d : dir) (f : text) : res (list R * list R) :=
  match d f with
  | None => Raise OtherException
  | Some t => do rows <- loadtxt t; two_columns rows
  end.

(** ccblade.py:365-455: the directory after the call, and the object or an exception. numpy.array of x and y of different lengths
    is an exception (line 401). *)
Definition af_flap_coords (o : flap_obj) (xfoil_path : text) (delta_flap xc_hinge yt_hinge : R) (numNodes : text)
    (pid : option text) (d : dir) : dir * res flap_obj :=
  let df := str delta_flap in
  let n := file_names (fo_name o) df pid in
  let d := clean d (n_save n) in
  let d := clean d (n_coords n) in
  let d := clean d (n_script n) in
  let d := clean d (n_null n) in
  if negb (Nat.eqb (length (fo_x o)) (length (fo_y o))) then (d, Raise OtherException) else
  let d := write d (n_coords n) (savetxt (fo_x o) (fo_y o)) in
  let d := write d (n_script n) (script (fo_name o) df (str xc_hinge) (str yt_hinge) numNodes n) in
  let d := system (command xfoil_path n) d in
  match read_back d (n_save n) with
  | Raise e => (d, Raise e)
  | Ok xy =>
      let d := clean d (n_coords n) in
      let d := clean d (n_script n) in
      let d := clean d (n_save n) in
      let d := clean d (n_null n) in
      (d, Ok (mkFlapObj (fo_x o) (fo_y o) (fo_name o) (Some xy) (Some delta_flap)))
  end.
End Flap.
