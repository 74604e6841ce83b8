(** Property theorems about the text written by writeToAerodynFile: C96. *)
From Coq Require Import Ascii String.
From Coq Require Import Reals List Bool ZArith Lra Lia.
From Verif Require Import Prelim Polar AeroDyn AeroDynSpec InterpSpec PolarSpec WriteSpec WriteProofs AeroDynExample.
Import ListNotations.
Open Scope R_scope.

(** ** C96: the text of the file *)
(** The file is the lines of [file_text] for the polars on their common angles and their eight parameters, one after the
    other without a separator. With a newline after each line it would be read back as those polars with rounded numbers. *)
Theorem C96_file_text : forall fmt_f fmt_d polyfit raw_interp af,
  (forall x y, x <> [] -> length x = length y -> exists mc, polyfit x y = Ok mc) ->
  af <> [] -> sorted_by_Re af -> Forall wf_polar af -> (exists p a, In p af /\ In a (p_alpha p) /\ -5 <= a <= 5) ->
  exists common params,
    interpToCommonAlpha af None = Ok common /\
    Forall2 (fun p l => unsteadyparam polyfit raw_interp p (-5) 5 = Ok l /\ length l = 8%nat) common params /\
    writeToAerodynFile fmt_f fmt_d padded (fun p => unsteadyparam polyfit raw_interp p (-5) 5) af =
      Ok (concat (file_text fmt_f fmt_d (combine common params))) /\
    (forall to_float to_int round,
       (forall x, word_for to_float (fmt_f x) (round x)) -> (forall n, word_for to_int (fmt_d n) (Z.of_nat n)) ->
       (forall x y, x <= y -> round x <= round y) ->
       eventually (fun fuel => initFromAerodynFile to_float to_int fuel (with_newlines (file_text fmt_f fmt_d (combine common params))))
         (Ok (map (on_paper round) common))).
Proof.
  intros fmt_f fmt_d polyfit raw_interp af Hp H1 H2 H3 H4.
  destruct (written fmt_f fmt_d polyfit raw_interp af Hp H1 H2 H3 H4) as (common & params & E & Hne & Hs & Hr & F & W).
  exists common, params. split; [exact E|]. split; [exact F|]. split; [exact W|]. intros to_float to_int round Hf Hd Hm.
  apply reads_back; auto. symmetry. clear - F. induction F; cbn; congruence.
Qed.
Print Assumptions C96_file_text.

(** If the parameters of a table cannot be computed the writer raises the exception of the first such table. *)
Theorem C96_no_parameters : forall fmt_f fmt_d pad40 unsteady af common done p rest e,
  interpToCommonAlpha af None = Ok common -> common = done ++ p :: rest ->
  Forall (fun q => exists l, unsteady q = Ok l) done -> unsteady p = Raise e ->
  writeToAerodynFile fmt_f fmt_d pad40 unsteady af = Raise e.
Proof.
  intros fmt_f fmt_d pad40 unsteady af common done p rest e E -> F Hp. unfold writeToAerodynFile. rewrite E. cbn [bind].
  replace (mapM _ _) with (@Raise (list text) e); [reflexivity|]. clear E. symmetry.
  induction F as [|q done (l & Hl) F IH]; cbn [app mapM]; unfold write_table at 1.
  - rewrite Hp. reflexivity.
  - rewrite Hl. cbn [bind]. rewrite IH. reflexivity.
Qed.
Print Assumptions C96_no_parameters.

(** Numbers printed as one digit, with spaces to the right: a reader that takes that digit for 0 sees all numbers rounded to 0. *)
Definition one_digit (x : R) : text := lit "0     ".
Definition count_digits (n : nat) : text := repeat "1"%char (S n).
Definition of_ones (t : text) : option Z := if forallb (Ascii.eqb "1") t then Some (Z.of_nat (length t) - 1)%Z else None.
Example C96_example :
  (forall x, word_for small_float (one_digit x) 0) /\ (forall n, word_for of_ones (count_digits n) (Z.of_nat n)) /\
  Forall wf_polar [ex_u] /\ sorted_by_Re [ex_u] /\ (exists p a, In p [ex_u] /\ In a (p_alpha p) /\ -5 <= a <= 5).
Proof.
  split; [|split; [|split; [|split]]].
  - intros x. exists (lit "0"), 5%nat. split; [reflexivity|]. split; [discriminate|]. split; [|reflexivity].
    constructor; [|constructor]. split; [cbn; intuition discriminate|discriminate].
  - intros n. exists (count_digits n), 0%nat. split; [symmetry; apply app_nil_r|]. split; [discriminate|]. split.
    + apply Forall_forall. intros c I. apply repeat_spec in I. subst c. split; [cbn; intuition discriminate|discriminate].
    + unfold of_ones. replace (forallb _ _) with true.
      * f_equal. unfold count_digits. rewrite repeat_length. lia.
      * symmetry. apply forallb_forall. intros c I. apply repeat_spec in I. subst c. reflexivity.
  - constructor; [exact ex_u_wf|constructor].
  - intros i j Hij. cbn in Hij. lia.
  - exists ex_u, 0. cbn. split; [tauto|]. split; [tauto|lra].
Qed.
