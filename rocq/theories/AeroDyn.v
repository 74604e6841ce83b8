(** Model of the AeroDyn file routines of airfoilprep.py: Airfoil.initFromAerodynFile (534-594),
    Airfoil.writeToAerodynFile (764-805) and Polar.unsteadyparam (400-469).

    Simplifications: a file is the text in it, a list of ASCII characters, lines end in "\n" (Python's translation of
    "\r\n" and other encodings are not modelled); opening and closing files is not modelled. [float], [int], number
    formatting and [numpy.polyfit] are arguments of the routines; a token read as nan or inf is not modelled. *)
From Coq Require Import Ascii String.
From Coq Require Import Reals List Bool ZArith Lra Lia.
From Verif Require Import Prelim Interp Polar PolarExt.
Import ListNotations.
Open Scope R_scope.

Definition text := list ascii.
Definition newline : ascii := "010"%char.
Definition lit (s : string) : text := list_ascii_of_string s.

(** * Text primitives of Python *)

(** f.readline (): the line with its newline, and what is left; empty text at the end of the file. *)
Fixpoint readline (t : text) : text * text :=
  match t with
  | [] => ([], [])
  | c :: t' => if Ascii.eqb c newline then ([c], t') else let (l, r) := readline t' in (c :: l, r)
  end.

(** Whitespace of str.split: tab, newline, vertical tab, form feed, carriage return, the separators 28-31, space. *)
Definition is_space (c : ascii) : bool :=
  let n := nat_of_ascii c in
  (Nat.leb 9 n && Nat.leb n 13) || (Nat.leb 28 n && Nat.leb n 32).

(** str.split (): [cur] is the word being read. *)
Fixpoint split_from (cur : text) (t : text) : list text :=
  match t with
  | [] => match cur with [] => [] | _ => [cur] end
  | c :: t' =>
      if is_space c then match cur with [] => split_from [] t' | _ => cur :: split_from [] t' end
      else split_from (cur ++ [c]) t'
  end.
Definition split (t : text) : list text := split_from [] t.

(** pat in t, for strings. *)
Fixpoint starts (pat t : text) : bool :=
  match pat, t with
  | [], _ => true
  | p :: pat', c :: t' => Ascii.eqb p c && starts pat' t'
  | _, [] => false
  end.
Fixpoint contains (pat t : text) : bool :=
  starts pat t || match t with [] => false | _ :: t' => contains pat t' end.

(** l[0]. *)
Definition head {A} (l : list A) : res A := match l with [] => Raise IndexError | x :: _ => Ok x end.

(** * Airfoil.initFromAerodynFile *)
Section Reader.
(** float (s) and int (s) of a token; [None] where Python raises ValueError. *)
Variable to_float : text -> option R.
Variable to_int : text -> option Z.

Definition float_ (s : text) : res R := match to_float s with Some x => Ok x | None => Raise ValueError end.
Definition int_ (s : text) : res Z := match to_int s with Some x => Ok x | None => Raise ValueError end.

(** float (f.readline ().split ()[0]), airfoilprep.py:558, 564, 569. *)
Definition read_float (t : text) : res (R * text) :=
  let (line, t') := readline t in
  do s <- head (split line);
  do x <- float_ s;
  Ok (x, t').

(** The eight parameters, airfoilprep.py:566-569 (their values are not used). *)
Fixpoint read_params (n : nat) (t : text) : res text :=
  match n with
  | O => Ok t
  | S n' => do xt <- read_float t; read_params n' (snd xt)
  end.

Record rows := mkRows { r_alpha : list R; r_cl : list R; r_cd : list R; r_cm : list R }.

(** The loop "while True", airfoilprep.py:577-588. The loop has no bound in the code; [fuel] is the number of
    iterations the model executes, [None] means that it needs more. *)
Fixpoint read_rows (fuel : nat) (acc : rows) (t : text) : option (res (rows * text)) :=
  match fuel with
  | O => None
  | S fuel' =>
      let (line, t') := readline t in
      if contains (lit "EOT") line then Some (Ok (acc, t')) else
      match mapM float_ (split line) with
      | Raise e => Some (Raise e)
      | Ok (a :: l :: d :: m :: _) =>
          read_rows fuel' (mkRows (r_alpha acc ++ [a]) (r_cl acc ++ [l]) (r_cd acc ++ [d]) (r_cm acc ++ [m])) t'
      | Ok _ => Some (Raise ValueError)
      end
  end.

(** One table, airfoilprep.py:563-590. *)
Definition read_table (fuel : nat) (t : text) : option (res (polar * text)) :=
  match (do xt <- read_float t; do t' <- read_params 8 (snd xt); Ok (fst xt * 1000000, t')) with
  | Raise e => Some (Raise e)
  | Ok (Re, t') =>
      match read_rows fuel (mkRows [] [] [] []) t' with
      | None => None
      | Some (Raise e) => Some (Raise e)
      | Some (Ok (r, t'')) => Some (Ok (mkPolar Re (r_alpha r) (r_cl r) (r_cd r) (r_cm r), t''))
      end
  end.

(** for i in range (numTables), airfoilprep.py:561. *)
Fixpoint read_tables (fuel n : nat) (polars : list polar) (t : text) : option (res (list polar)) :=
  match n with
  | O => Some (Ok polars)
  | S n' =>
      match read_table fuel t with
      | None => None
      | Some (Raise e) => Some (Raise e)
      | Some (Ok (p, t')) => read_tables fuel n' (polars ++ [p]) t'
      end
  end.

(** Airfoil.initFromAerodynFile, airfoilprep.py:534-594; range of a negative number is empty. *)
Definition initFromAerodynFile (fuel : nat) (file : text) : option (res airfoil) :=
  let (_, t1) := readline file in
  let (_, t2) := readline t1 in
  let (_, t3) := readline t2 in
  let (line, t4) := readline t3 in
  match (do s <- head (split line); int_ s) with
  | Raise e => Some (Raise e)
  | Ok numTables =>
      match read_tables fuel (Z.to_nat numTables) [] t4 with
      | None => None
      | Some (Raise e) => Some (Raise e)
      | Some (Ok polars) => Some (mk_airfoil polars)
      end
  end.
End Reader.

(** * Polar.unsteadyparam *)
Section Unsteady.
(** numpy.polyfit (x, y, 1), and numpy.interp on tables that need not be sorted (airfoilprep.py:457-458). *)
Variable polyfit : list R -> list R -> res (R * R).
Variable raw_interp : R -> list R -> list R -> R.

(** l.argmin (): the first position of the smallest entry (ValueError for an empty array). *)
Fixpoint argmin_from (l : list R) (i best : nat) (v : R) : nat :=
  match l with
  | [] => best
  | x :: l' => if rltb x v then argmin_from l' (S i) i x else argmin_from l' (S i) best v
  end.
Definition argmin (l : list R) : res nat :=
  match l with [] => Raise ValueError | x :: l' => Ok (argmin_from l' 1 0 x) end.

(** numpy.arange (40.0) and numpy.arange (5.0, -40.0, -1). *)
Definition arange_up : list R := map INR (seq 0 40).
Definition arange_down : list R := map (fun k => 5 - INR k) (seq 0 45).

(** Polar.unsteadyparam, airfoilprep.py:400-469, for a polar with one coefficient per angle. The test
    "len (idx) < 10" on line 431 looks at the length of the mask, which is the number of angles. *)
Definition unsteadyparam (p : polar) (alpha_linear_min alpha_linear_max : R) : res (list R) :=
  let alpha := map radians (p_alpha p) in
  let almin := radians alpha_linear_min in
  let almax := radians alpha_linear_max in
  let cn := map2 (fun a c => fst c * cos a + snd c * sin a) alpha (combine (p_cl p) (p_cd p)) in
  if Nat.ltb (length alpha) 10 || Nat.ltb (length (unique (p_cl p))) 10
  then Ok [0; 0; 0; 0; 0; 0; 0; 0] else
  let lin := filter (fun x => rleb almin (fst x) && rleb (fst x) almax) (combine alpha cn) in
  do mp <- polyfit (map fst lin) (map snd lin);
  let m := fst mp in
  let alpha0 := - snd mp / m in
  let alphaUpper := map radians arange_up in
  let alphaLower := map radians arange_down in
  do cnUpper <- np_interp alphaUpper alpha cn;
  do cnLower <- np_interp alphaLower alpha cn;
  let devUpper := map2 (fun a c => m * (a - alpha0) - c) alphaUpper cnUpper in
  let devLower := map2 (fun a c => c - m * (a - alpha0)) alphaLower cnLower in
  let alphaU := raw_interp (5 / 100) devUpper alphaUpper in
  let alphaL := raw_interp (5 / 100) devLower alphaLower in
  let cnStallUpper := m * (alphaU - alpha0) in
  let cnStallLower := m * (alphaL - alpha0) in
  do i <- argmin (p_cd p);
  Ok [0; degrees alphaU; degrees alpha0; m; cnStallUpper; cnStallLower; nth i alpha 0; nth i (p_cd p) 0].
End Unsteady.

(** * Airfoil.writeToAerodynFile *)
Section Writer.
(** "{:<10f}", "{:<10d}" and the padding "{:40}" of str.format. *)
Variable fmt_f : R -> text.
Variable fmt_d : nat -> text.
Variable pad40 : text -> text.
Variable unsteady : polar -> res (list R).

Definition tab : text := ["009"%char].

(** "{0:<10f}\t{1:40}".format (x, label). *)
Definition entry (x : R) (label : text) : text := fmt_f x ++ tab ++ pad40 label.

Definition param_labels : list text :=
  [lit "Control setting"; lit "Stall angle (deg)"; lit "Angle of attack for zero Cn for linear Cn curve (deg)";
   lit "Cn slope for zero lift for linear Cn curve (1/rad)";
   lit "Cn at stall value for positive angle of attack for linear Cn curve";
   lit "Cn at stall value for negative angle of attack for linear Cn curve";
   lit "Angle of attack for minimum CD (deg)"; lit "Minimum CD value"].

(** zip of the four columns: as long as the shortest. *)
Fixpoint zip4 (a l d m : list R) : list (R * (R * (R * R))) :=
  match a, l, d, m with
  | x :: a', y :: l', z :: d', w :: m' => (x, (y, (z, w))) :: zip4 a' l' d' m'
  | _, _, _, _ => []
  end.

(** One table, airfoilprep.py:783-804: every f.write appends its text; none of them writes a newline. *)
Definition write_table (p : polar) : res text :=
  do param <- unsteady p;
  Ok (entry (p_Re p / 1000000) (lit "Reynolds number in millions.") ++
      concat (map (fun k => entry (nth k param 0) (nth k param_labels [])) (seq 0 8)) ++
      concat (map (fun r => fmt_f (fst r) ++ tab ++ fmt_f (fst (snd r)) ++ tab ++
                            fmt_f (fst (snd (snd r))) ++ tab ++ fmt_f (snd (snd (snd r))))
                  (zip4 (p_alpha p) (p_cl p) (p_cd p) (p_cm p))) ++
      lit "EOT").

(** Airfoil.writeToAerodynFile, airfoilprep.py:764-805: the text of the file. *)
Definition writeToAerodynFile (af : airfoil) : res text :=
  do common <- interpToCommonAlpha af None;
  do tables <- mapM write_table common;
  Ok (lit "AeroDyn airfoil file." ++ lit "Compatible with AeroDyn v13.0." ++ lit "Generated by airfoilprep.py" ++
      fmt_d (length common) ++ tab ++ tab ++ pad40 (lit "Number of airfoil tables in this file") ++
      concat tables).
End Writer.
