(** Vocabulary of the flap routine (C115 to C118). *)
From Coq Require Import Ascii String.
From Coq Require Import Reals List Bool Arith.
From Verif Require Import Prelim AeroDyn Flap.
Import ListNotations.
Open Scope R_scope.

(** The working files of a call. *)
Definition working (n : names) (f : text) : Prop := f = n_coords n \/ f = n_save n \/ f = n_script n \/ f = n_null n.

(** What a shell that runs XFOIL does to the directory: it creates the file for the output of the program and, if XFOIL gets that far,
    the coordinate file; no other file is touched. [input] is the script it is run with. *)
Definition only_results (system : text -> dir -> dir) (c : text) (n : names) (input : text) : Prop :=
  forall d, d (n_script n) = Some input -> forall f, f <> n_save n -> f <> n_null n -> system c d f = d f.

(** The decimal digits. *)
Definition is_digit (c : ascii) : Prop := (48 <= nat_of_ascii c <= 57)%nat.
Definition decimal (t : text) : Prop := t <> [] /\ Forall is_digit t.

(** A word: neither blanks nor line ends. *)
Definition word (t : text) : Prop := Forall (fun c => is_space c = false) t.

(** * XFOIL's menus, as in its manual

    At a prompt XFOIL reads one line and ignores blanks around what was typed. [geo] are airfoil shapes: [read] of a plain
    coordinate file, [flap] with hinge x/c, hinge y/t and deflection, [panel] with the number of panel nodes and the ratio of
    panel densities at the trailing and the leading edge, [print] the coordinate file that PSAV writes. *)
Section Xfoil.
Variables (geo : Type) (read : text -> option geo) (flap : geo -> text -> text -> text -> geo) (panel : geo -> text -> text -> geo) (print : geo -> text).

Inductive prompt :=
  | Top | Plot | Design | Panels (changed : bool)
  | LoadFile | LoadName | HingeX | HingeY (x : text) | HingeT (x : text) | Deflection (x y : text) | NewName
  | NodesN | NodesT | SaveFile | Gone.

Record xfoil := mkXfoil { at_ : prompt; current : option geo; buffer : option geo; nodes : text; ratio : text; files : dir }.

Fixpoint ltrim (t : text) : text := match t with c :: t' => if is_space c then ltrim t' else t | [] => [] end.
Definition trim (t : text) : text := rev (ltrim (rev (ltrim t))).
Definition is (t : text) (s : string) : bool := teq t (list_ascii_of_string s).

Definition goto (p : prompt) (x : xfoil) : xfoil := mkXfoil p (current x) (buffer x) (nodes x) (ratio x) (files x).

Definition step (x : xfoil) (line : text) : xfoil :=
  let w := trim line in
  match at_ x with
  | Top =>
      if is w "PLOP" then goto Plot x else if is w "LOAD" then goto LoadFile x else if is w "GDES" then goto Design x
      else if is w "PPAR" then goto (Panels false) x else if is w "PSAV" then goto SaveFile x else if is w "QUIT" then goto Gone x
      else x (* an empty line, or a command that is not recognised *)
  | Plot => if is w "" then goto Top x else x
  | LoadFile => (* a file that cannot be read: back to the top without asking for a name *)
      match (match files x w with Some t => read t | None => None end) with
      | Some g => mkXfoil LoadName (Some g) (Some g) (nodes x) (ratio x) (files x)
      | None => goto Top x
      end
  | LoadName => goto Top x
  | Design =>
      if is w "" then goto Top x else if is w "FLAP" then goto HingeX x else if is w "NAME" then goto NewName x
      else if is w "EXEC" then mkXfoil Design (buffer x) (buffer x) (nodes x) (ratio x) (files x)
      else x
  | HingeX => goto (HingeY w) x
  | HingeY hx => if is w "999" then goto (HingeT hx) x else goto Design x (* a distance: not used here *)
  | HingeT hx => goto (Deflection hx w) x
  | Deflection hx hy => mkXfoil Design (current x) (option_map (fun g => flap g hx hy w) (buffer x)) (nodes x) (ratio x) (files x)
  | NewName => goto Design x
  | Panels ch =>
      if is w "" then mkXfoil Top (if ch then option_map (fun g => panel g (nodes x) (ratio x)) (buffer x) else current x) (buffer x) (nodes x) (ratio x) (files x)
      else if is w "N" then goto NodesN x else if is w "T" then goto NodesT x else x
  | NodesN => mkXfoil (Panels true) (current x) (buffer x) w (ratio x) (files x)
  | NodesT => mkXfoil (Panels true) (current x) (buffer x) (nodes x) w (files x)
  | SaveFile => mkXfoil Top (current x) (buffer x) (nodes x) (ratio x)
      (match current x with Some g => fun f => if teq f w then Some (print g) else files x f | None => files x end)
  | Gone => x
  end.

(** The lines of a text. *)
Fixpoint lines_from (cur : text) (t : text) : list text :=
  match t with
  | [] => match cur with [] => [] | _ => [cur] end
  | c :: t' => if Ascii.eqb c newline then cur :: lines_from [] t' else lines_from (cur ++ [c]) t'
  end.

(** The directory that XFOIL, reading [input], leaves behind; it starts at the top menu without an airfoil. *)
Definition run_xfoil (n0 t0 : text) (input : text) (d : dir) : dir :=
  files (fold_left step (lines_from [] input) (mkXfoil Top None None n0 t0 d)).

(** The shell: redirections of input and output. [out] is what XFOIL prints. *)
Definition runs_xfoil (system : text -> dir -> dir) (c : text) (inp out : text) (n0 t0 : text) : Prop :=
  forall d i, d inp = Some i -> forall f, f <> out -> system c d f = run_xfoil n0 t0 i (fun g => if teq g out then Some [] else d g) f.
End Xfoil.
