(** Specification vocabulary for the text written by writeToAerodynFile (C96), independent of the writer. *)
From Coq Require Import Ascii String.
From Coq Require Import Reals List ZArith.
From Verif Require Import Prelim Polar AeroDyn AeroDynSpec.
Import ListNotations.
Open Scope R_scope.

(** "{:40}": filled up with spaces on the right to 40 characters. *)
Definition padded (s : text) : text := s ++ repeat " "%char (40 - length s).

Section File.
(** How a number and a whole number are printed. *)
Variable print : R -> text.
Variable print_nat : nat -> text.

(** A number, a tab, what it is. *)
Definition labelled (x : R) (label : string) : text := print x ++ "009"%char :: padded (lit label).
(** Four numbers separated by tabs. *)
Definition four (a l d m : R) : text := print a ++ "009"%char :: print l ++ "009"%char :: print d ++ "009"%char :: print m.

(** The lines of a table: Reynolds number in millions, the eight parameters, a line per angle, the end mark. *)
Definition table_text (p : polar) (param : list R) : list text :=
  [labelled (p_Re p / 1000000) "Reynolds number in millions.";
   labelled (nth 0 param 0) "Control setting";
   labelled (nth 1 param 0) "Stall angle (deg)";
   labelled (nth 2 param 0) "Angle of attack for zero Cn for linear Cn curve (deg)";
   labelled (nth 3 param 0) "Cn slope for zero lift for linear Cn curve (1/rad)";
   labelled (nth 4 param 0) "Cn at stall value for positive angle of attack for linear Cn curve";
   labelled (nth 5 param 0) "Cn at stall value for negative angle of attack for linear Cn curve";
   labelled (nth 6 param 0) "Angle of attack for minimum CD (deg)";
   labelled (nth 7 param 0) "Minimum CD value"] ++
  map (fun i => four (nth i (p_alpha p) 0) (nth i (p_cl p) 0) (nth i (p_cd p) 0) (nth i (p_cm p) 0)) (seq 0 (length (p_alpha p))) ++
  [lit "EOT"].

Definition file_text (tables : list (polar * list R)) : list text :=
  [lit "AeroDyn airfoil file."; lit "Compatible with AeroDyn v13.0."; lit "Generated by airfoilprep.py";
   print_nat (length tables) ++ "009"%char :: "009"%char :: padded (lit "Number of airfoil tables in this file")] ++
  concat (map (fun t => table_text (fst t) (snd t)) tables).
End File.

(** A newline after each line. *)
Definition with_newlines (ls : list text) : text := concat (map (fun l => l ++ [newline]) ls).

(** The text is a word for this value, followed by spaces; the word has no T (as in the end mark EOT). *)
Definition word_for {A} (meaning : text -> option A) (t : text) (v : A) : Prop :=
  exists w k, t = w ++ repeat " "%char k /\ w <> [] /\ Forall (fun c => ~ blank c /\ c <> "T"%char) w /\ meaning w = Some v.

(** A polar with all its numbers replaced by what is left of them on paper. *)
Definition on_paper (round : R -> R) (p : polar) : polar :=
  mkPolar (round (p_Re p / 1000000) * 1000000) (map round (p_alpha p)) (map round (p_cl p)) (map round (p_cd p)) (map round (p_cm p)).
