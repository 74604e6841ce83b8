(** Files of the flap routine CCAirfoil.af_flap_coords (C115 to C118). *)
From Coq Require Import Ascii String.
From Coq Require Import Reals List Bool Arith Lra Lia.
From Verif Require Import Prelim AeroDyn Flap FlapSpec FlapProofs.
Import ListNotations.
Open Scope R_scope.

(** ** C115: a call that returns leaves no files behind and does not depend on those of earlier calls *)
Theorem C115_cleans_up : forall str savetxt loadtxt system o path delta xc yt nn pid d d' o',
  af_flap_coords str savetxt loadtxt system o path delta xc yt nn pid d = (d', Ok o') ->
  forall f, working (file_names (fo_name o) (str delta) pid) f -> d' f = None.
Proof. exact cleans_up. Qed.
Print Assumptions C115_cleans_up.

Theorem C115_other_files : forall str savetxt loadtxt system o path delta xc yt nn pid d d' r,
  let n := file_names (fo_name o) (str delta) pid in
  only_results system (command path n) n (script (fo_name o) (str delta) (str xc) (str yt) nn n) ->
  af_flap_coords str savetxt loadtxt system o path delta xc yt nn pid d = (d', r) ->
  forall f, ~ working n f -> d' f = d f.
Proof. intros str savetxt loadtxt system o path delta xc yt nn pid d d' r. exact (leaves_others str savetxt loadtxt system o path delta xc yt nn pid d d' r). Qed.
Print Assumptions C115_other_files.

(** Old files under the names of the working files (of a call that failed, say) make no difference, whatever XFOIL does. *)
Theorem C115_old_files : forall str savetxt loadtxt system o path delta xc yt nn pid d1 d2,
  (forall f, ~ working (file_names (fo_name o) (str delta) pid) f -> d1 f = d2 f) ->
  af_flap_coords str savetxt loadtxt system o path delta xc yt nn pid d1 = af_flap_coords str savetxt loadtxt system o path delta xc yt nn pid d2.
Proof. exact no_stale. Qed.
Print Assumptions C115_old_files.

(** The profile and the name stay, the deflection is stored as [ctrl]. *)
Theorem C115_object : forall str savetxt loadtxt system o path delta xc yt nn pid d d' o',
  af_flap_coords str savetxt loadtxt system o path delta xc yt nn pid d = (d', Ok o') ->
  fo_x o' = fo_x o /\ fo_y o' = fo_y o /\ fo_name o' = fo_name o /\ fo_ctrl o' = Some delta.
Proof. exact keeps_profile. Qed.
Print Assumptions C115_object.

(** ** C116: the working files are removed in any case. False: they stay if XFOIL gives no coordinates. *)
Definition always_cleans : Prop := forall str savetxt loadtxt system o path delta xc yt nn pid d d' r,
  let n := file_names (fo_name o) (str delta) pid in
  pid_ok pid -> only_results system (command path n) n (script (fo_name o) (str delta) (str xc) (str yt) nn n) ->
  af_flap_coords str savetxt loadtxt system o path delta xc yt nn pid d = (d', r) -> forall f, working n f -> d' f = None.

(** A missing XFOIL: nothing but the file for its output appears. The call raises, and its two input files stay. *)
Theorem C116_no_xfoil : forall str savetxt loadtxt system o path delta xc yt nn pid d,
  let n := file_names (fo_name o) (str delta) pid in let input := script (fo_name o) (str delta) (str xc) (str yt) nn n in
  pid_ok pid -> only_results system (command path n) n input ->
  (forall d, d (n_script n) = Some input -> system (command path n) d (n_save n) = d (n_save n)) -> length (fo_x o) = length (fo_y o) ->
  exists d', af_flap_coords str savetxt loadtxt system o path delta xc yt nn pid d = (d', Raise OtherException) /\
    d' (n_coords n) = Some (savetxt (fo_x o) (fo_y o)) /\ d' (n_script n) = Some input.
Proof. intros str savetxt loadtxt system o path delta xc yt nn pid d. exact (no_result str savetxt loadtxt system o path delta xc yt nn pid d). Qed.
Print Assumptions C116_no_xfoil.

(** So does a result of one row or one column: IndexError, and the result file stays too. *)
Theorem C116_short_table : forall str savetxt loadtxt system o path delta xc yt nn pid d,
  let n := file_names (fo_name o) (str delta) pid in let input := script (fo_name o) (str delta) (str xc) (str yt) nn n in
  pid_ok pid -> only_results system (command path n) n input ->
  (forall d, d (n_script n) = Some input -> exists t rows, system (command path n) d (n_save n) = Some t /\ loadtxt t = Ok rows /\
     (length rows < 2 \/ length (hd [] rows) < 2)%nat) -> length (fo_x o) = length (fo_y o) ->
  exists d', af_flap_coords str savetxt loadtxt system o path delta xc yt nn pid d = (d', Raise IndexError) /\
    d' (n_coords n) = Some (savetxt (fo_x o) (fo_y o)) /\ d' (n_script n) = Some input /\ d' (n_save n) <> None.
Proof. intros str savetxt loadtxt system o path delta xc yt nn pid d. exact (short_table str savetxt loadtxt system o path delta xc yt nn pid d). Qed.
Print Assumptions C116_short_table.

Definition wedge : flap_obj := mkFlapObj [1; 0; 1] [0; 0; 1 / 10] (lit "wedge") None None.
Definition twelve : R -> text := fun _ => lit "12.0".
Definition points : list R -> list R -> text := fun _ _ => lit "points".
Definition three_rows : text -> res (list (list R)) := fun _ => Ok [[1; 0]; [0; 0]; [1; 1 / 10]].
(** A shell that does not find the program, and one whose program writes a coordinate file. *)
Definition no_shell : text -> dir -> dir := fun _ d f => if teq f (lit "NUL") then Some [] else d f.
Definition writing : text -> dir -> dir := fun _ d f => if teq f (lit "NUL") then Some [] else if teq f (lit "wedge_12.0_Airfoil.txt") then Some (lit "table") else d f.

Theorem C116_always_cleans_refuted : ~ always_cleans.
Proof.
  intros H.
  assert (O : only_results no_shell (command (lit "xfoil") (file_names (fo_name wedge) (twelve 12) None)) (file_names (fo_name wedge) (twelve 12) None)
     (script (fo_name wedge) (twelve 12) (twelve (8 / 10)) (twelve (1 / 2)) (lit "250") (file_names (fo_name wedge) (twelve 12) None))).
  { intros d _ f _ Hf. unfold no_shell. rewrite teq_false by exact Hf. reflexivity. }
  destruct (C116_no_xfoil twelve points three_rows no_shell wedge (lit "xfoil") 12 (8 / 10) (1 / 2) (lit "250") None (fun _ => None) I O
    ltac:(intros d _; reflexivity) eq_refl) as (d' & E & H1 & _).
  specialize (H twelve points three_rows no_shell wedge (lit "xfoil") 12 (8 / 10) (1 / 2) (lit "250") None (fun _ => None) d' _ I O E
    (n_coords (file_names (fo_name wedge) (twelve 12) None)) (or_introl eq_refl)).
  rewrite H in H1. discriminate H1.
Qed.
Print Assumptions C116_always_cleans_refuted.

(** ** C117: processes do not share working files *)
Theorem C117_names : forall A A' df df' p q, decimal p -> decimal q -> p <> q ->
  forall f, working (file_names A df (Some p)) f -> working (file_names A' df' (Some q)) f -> False.
Proof. exact names_apart. Qed.
Print Assumptions C117_names.

(** The working files of one call are four different files. *)
Theorem C117_distinct : forall A df pid, pid_ok pid -> let n := file_names A df pid in NoDup [n_coords n; n_save n; n_script n; n_null n].
Proof.
  intros A df pid Hp. destruct (names_distinct A df pid Hp) as (D1 & D2 & D3 & D4 & D5 & D6). cbv zeta.
  repeat constructor; cbn [In]; intuition congruence.
Qed.
Print Assumptions C117_distinct.

(** Calls for different deflections of one airfoil read different result files. *)
Theorem C117_deflections : forall A df df' pid, df <> df' -> n_save (file_names A df pid) <> n_save (file_names A df' pid).
Proof. intros A df df' pid H E. exact (H (save_injective A df df' pid E)). Qed.
Print Assumptions C117_deflections.

(** So a call leaves the working files of the call of another process alone, whether it returns or raises. *)
Theorem C117_calls : forall str savetxt loadtxt system o path delta xc yt nn p q A df d d' r,
  let n := file_names (fo_name o) (str delta) (Some p) in decimal p -> decimal q -> p <> q ->
  only_results system (command path n) n (script (fo_name o) (str delta) (str xc) (str yt) nn n) ->
  af_flap_coords str savetxt loadtxt system o path delta xc yt nn (Some p) d = (d', r) ->
  forall f, working (file_names A df (Some q)) f -> d' f = d f.
Proof.
  intros str savetxt loadtxt system o path delta xc yt nn p q A df d d' r n Hp Hq Hne Ho E f Hf.
  apply (C115_other_files str savetxt loadtxt system o path delta xc yt nn (Some p) d d' r Ho E). intros Hw.
  exact (names_apart _ _ _ _ p q Hp Hq Hne f Hw Hf).
Qed.
Print Assumptions C117_calls.

(** ** C118: the coordinates are those of the flapped and repanelled profile

    [runs_xfoil]: os.system runs a program that obeys XFOIL's menus (FlapSpec.v) on the script. *)
Theorem C118_flapped : forall str savetxt loadtxt system o path delta xc yt nn pid d geo read flap panel print n0 t0 (g : geo) rows,
  let n := file_names (fo_name o) (str delta) pid in
  word (fo_name o) -> (forall x, word (str x)) -> word nn -> pid_ok pid -> length (fo_x o) = length (fo_y o) ->
  runs_xfoil geo read flap panel print system (command path n) (n_script n) (n_null n) n0 t0 ->
  read (savetxt (fo_x o) (fo_y o)) = Some g ->
  loadtxt (print (panel (flap g (str xc) (str yt) (str delta)) nn (lit "0.5"))) = Ok rows -> (2 <= length rows)%nat -> Forall (fun r => length r = 2%nat) rows ->
  exists d', af_flap_coords str savetxt loadtxt system o path delta xc yt nn pid d =
    (d', Ok (mkFlapObj (fo_x o) (fo_y o) (fo_name o) (Some (map (fun r => nth 0 r 0) rows, map (fun r => nth 1 r 0) rows)) (Some delta))).
Proof. exact flapped. Qed.
Print Assumptions C118_flapped.

(** The premises can be met: a call that returns in a directory with an old coordinate file and a foreign file. *)
Definition old_dir : dir := fun f => if teq f (lit "wedge_12.0_Airfoil.txt") then Some (lit "old") else if teq f (lit "notes") then Some (lit "keep") else None.
Example C115_example : let n := file_names (fo_name wedge) (twelve 12) None in
  only_results writing (command (lit "xfoil") n) n (script (fo_name wedge) (twelve 12) (twelve (8 / 10)) (twelve (1 / 2)) (lit "250") n) /\
  exists d', af_flap_coords twelve points three_rows writing wedge (lit "xfoil") 12 (8 / 10) (1 / 2) (lit "250") None old_dir =
    (d', Ok (mkFlapObj [1; 0; 1] [0; 0; 1 / 10] (lit "wedge") (Some ([1; 0; 1], [0; 0; 1 / 10])) (Some 12))) /\
  d' (lit "wedge_12.0_Airfoil.txt") = None /\ d' (lit "notes") = Some (lit "keep").
Proof.
  cbv zeta. split.
  - intros d _ f H1 H2. unfold writing. rewrite (teq_false f (lit "NUL")) by exact H2. rewrite (teq_false f (lit "wedge_12.0_Airfoil.txt")) by exact H1. reflexivity.
  - eexists. split; [reflexivity|]. split; reflexivity.
Qed.
Definition one_column : text -> res (list (list R)) := fun _ => Ok [[1]; [0]; [1]].
Example C116_example : let n := file_names (fo_name wedge) (twelve 12) None in
  exists d', af_flap_coords twelve points one_column writing wedge (lit "xfoil") 12 (8 / 10) (1 / 2) (lit "250") None old_dir = (d', Raise IndexError) /\
    d' (n_coords n) = Some (lit "points") /\ d' (n_save n) <> None.
Proof.
  cbv zeta. destruct (C116_short_table twelve points one_column writing wedge (lit "xfoil") 12 (8 / 10) (1 / 2) (lit "250") None old_dir) as (d' & E & H1 & _ & H2); try reflexivity.
  - apply C115_example.
  - intros d _. exists (lit "table"), [[1]; [0]; [1]]. split; [reflexivity|]. split; [reflexivity|]. right. cbn. lia.
  - exists d'. split; [exact E|]. split; assumption.
Qed.
Example C117_example : decimal (lit "71") /\ decimal (lit "171") /\ lit "71" <> lit "171" /\
  n_save (file_names (lit "A") (lit "1.0") (Some (lit "171"))) = lit "A_1.0_Airfoil_p171.txt".
Proof.
  assert (D : decimal (lit "71") /\ decimal (lit "171")).
  { split; (split; [discriminate|]); repeat (apply Forall_cons; [unfold is_digit; cbn; lia|]); apply Forall_nil. }
  split; [apply D|]. split; [apply D|]. split; [discriminate|reflexivity].
Qed.

(** An XFOIL whose shapes are texts: flap and panel append what they were asked for. *)
Definition t_flap (g x y a : text) : text := g ++ lit "|flap " ++ x ++ lit " " ++ y ++ lit " " ++ a.
Definition t_panel (g n t : text) : text := g ++ lit "|panel " ++ n ++ lit " " ++ t.
Definition t_shell : text -> dir -> dir := fun _ d f =>
  match d (lit "xfoil_input.txt") with
  | Some i => run_xfoil text (fun t => Some t) t_flap t_panel (fun t => t) (lit "160") (lit "0.15") i (fun g => if teq g (lit "NUL") then Some [] else d g) f
  | None => d f
  end.
Definition t_load : text -> res (list (list R)) :=
  fun t => if teq t (lit "points|flap 12.0 12.0 12.0|panel 250 0.5") then Ok [[1; 0]; [0; 2]] else Raise ValueError.
Example C118_example : let n := file_names (fo_name wedge) (twelve 12) None in
  word (fo_name wedge) /\ (forall x, word (twelve x)) /\ word (lit "250") /\ pid_ok None /\
  runs_xfoil text (fun t => Some t) t_flap t_panel (fun t => t) t_shell (command (lit "xfoil") n) (n_script n) (n_null n) (lit "160") (lit "0.15") /\
  exists d', af_flap_coords twelve points t_load t_shell wedge (lit "xfoil") 12 (8 / 10) (1 / 2) (lit "250") None old_dir =
    (d', Ok (mkFlapObj [1; 0; 1] [0; 0; 1 / 10] (lit "wedge") (Some ([1; 0], [0; 2])) (Some 12))).
Proof.
  cbv zeta.
  assert (W1 : word (fo_name wedge)) by (apply word_lit; reflexivity). assert (W2 : forall x, word (twelve x)) by (intros x; apply word_lit; reflexivity).
  assert (W3 : word (lit "250")) by (apply word_lit; reflexivity).
  assert (X : runs_xfoil text (fun t => Some t) t_flap t_panel (fun t => t) t_shell (command (lit "xfoil") (file_names (fo_name wedge) (twelve 12) None))
    (n_script (file_names (fo_name wedge) (twelve 12) None)) (n_null (file_names (fo_name wedge) (twelve 12) None)) (lit "160") (lit "0.15")).
  { intros d i Hi f _. unfold t_shell. change (n_script (file_names (fo_name wedge) (twelve 12) None)) with (lit "xfoil_input.txt") in Hi. rewrite Hi. reflexivity. }
  refine (conj W1 (conj W2 (conj W3 (conj I (conj X _))))).
  apply (C118_flapped twelve points t_load t_shell wedge (lit "xfoil") 12 (8 / 10) (1 / 2) (lit "250") None old_dir text (fun t => Some t) t_flap t_panel (fun t => t)
    (lit "160") (lit "0.15") (lit "points") [[1; 0]; [0; 2]]); try assumption; try reflexivity; repeat constructor.
Qed.
