(** Concrete files and polars for the AeroDyn properties. *)
From Coq Require Import Ascii String.
From Coq Require Import Reals List Bool ZArith Lra Lia.
From Verif Require Import Prelim Polar AeroDyn AeroDynSpec InterpSpec PolarSpec PolarProofs AeroDynProofs UnsteadyProofs.
Import ListNotations.
Open Scope R_scope.

(** One-digit numbers, with an optional minus sign. *)
Definition digit (c : ascii) : option Z :=
  let n := nat_of_ascii c in if Nat.leb 48 n && Nat.leb n 57 then Some (Z.of_nat n - 48)%Z else None.
Definition small_int (s : text) : option Z :=
  match s with
  | [c] => digit c
  | [m; c] => if Ascii.eqb m "-" then option_map Z.opp (digit c) else None
  | _ => None
  end.
Definition small_float (s : text) : option R := option_map IZR (small_int s).

Definition line (s : string) : text := lit s ++ [newline].
Definition sample : text :=
  line "h" ++ line "h" ++ line "h" ++ line "1  tables" ++ line " 2 Reynolds" ++
  concat (repeat (line "0 x") 8) ++ line "-4 -1 1 0" ++ line "4 1   2 0 7" ++ lit "EOT".


Lemma fields_eq l ws : split l = ws -> fields l ws. Proof. intros <-. apply fields_split. Qed.
Ltac word s := exists (lit s); eexists; split; [apply fields_eq; reflexivity|reflexivity].
Ltac no_eot := rewrite <- contains_spec; vm_compute; discriminate.
Ltac no_nl := cbn; intuition discriminate.

Lemma sample_ok : exists h1 h2 h3 count tls,
  lines_of sample (h1 :: h2 :: h3 :: count :: concat [tls] ++ []) /\
  announces small_int count 1 /\
  table_lines small_float tls (mkTable 2 [mkRow (-4) (-1) 1 0; mkRow 4 1 2 0]).
Proof.
  exists (lit "h"), (lit "h"), (lit "h"), (lit "1  tables"),
    ((lit " 2 Reynolds" :: repeat (lit "0 x") 8) ++ [lit "-4 -1 1 0"; lit "4 1   2 0 7"] ++ [lit "EOT"]).
  split; [|split].
  - unfold sample, line. cbn [concat repeat app]. rewrite app_nil_r. rewrite <- !app_assoc. cbn [app].
    repeat (apply lines_more; [no_nl|]). apply lines_last; [discriminate|no_nl].
  - word "1"%string.
  - eexists _, _, _. split; [reflexivity|]. split; [|split].
    + eexists _, _. split; [reflexivity|]. split; [word "2"%string|]. split; [reflexivity|].
      repeat (apply Forall_cons; [exists 0; word "0"%string|]). apply Forall_nil.
    + cbn [tb_rows]. repeat apply Forall2_cons; [| |apply Forall2_nil].
      * split; [no_eot|]. eexists _, _, _, _, _. split; [apply fields_eq; reflexivity|]. repeat (split; [reflexivity|]). constructor.
      * split; [no_eot|]. eexists _, _, _, _, _. split; [apply fields_eq; reflexivity|]. repeat (split; [reflexivity|]).
        constructor; [discriminate|constructor].
    + exists [], []. reflexivity.
Qed.

Definition ex_u : polar :=
  mkPolar 1000000 [-5; -4; -3; -2; -1; 0; 1; 2; 3; 4; 5] [-5; -4; -3; -2; -1; 0; 1; 2; 3; 4; 5]
    [5/100; 5/100; 5/100; 5/100; 5/100; 5/100; 5/100; 5/100; 1/100; 5/100; 5/100] [0; 0; 0; 0; 0; 0; 0; 0; 0; 0; 0].
Definition ex_v : polar :=
  mkPolar 1000000 [11; 12; 13; 14; 15; 16; 17; 18; 19; 20] [1; 2; 3; 4; 5; 6; 7; 8; 9; 10]
    [1; 1; 1; 1; 1; 1; 1; 1; 1; 1] [0; 0; 0; 0; 0; 0; 0; 0; 0; 0].

Ltac nodup := repeat constructor; cbn; intuition lra.
Lemma ex_u_wf : wf_polar ex_u.
Proof. unfold ex_u. split; [discriminate|]. cbn [p_alpha p_cl p_cd p_cm]. split; [incr_lit|]. auto. Qed.
Lemma ex_v_wf : wf_polar ex_v.
Proof. unfold ex_v. split; [discriminate|]. cbn [p_alpha p_cl p_cd p_cm]. split; [incr_lit|]. auto. Qed.
Lemma ex_u_ten : ten_values (p_cl ex_u).
Proof. exists [-5; -4; -3; -2; -1; 0; 1; 2; 3; 4]. split; [nodup|]. split; [reflexivity|]. intros x. cbn. tauto. Qed.
Lemma ex_v_ten : ten_values (p_cl ex_v).
Proof. exists (p_cl ex_v). split; [nodup|]. split; [reflexivity|]. apply incl_refl. Qed.

Lemma ex_u_unit : exists l, unsteadyparam (fun _ _ => Ok (6, 0)) (fun _ _ _ => 0) ex_u (-5) 5 = Ok l /\
  nth 7 l 0 = 1/100 /\ nth 6 l 0 = radians 3 /\ nth 6 l 0 <> 3.
Proof.
  destruct (wrong_unit (fun _ _ => Ok (6, 0)) (fun _ _ _ => 0) ex_u (-5) 5 6 0 ex_u_wf ltac:(cbn; lia) ex_u_ten eq_refl ltac:(lra))
    as (l & i & E & Hi & F & H6 & H7 & Hn).
  assert (i = 8)%nat.
  { rewrite Forall_forall in F. specialize (F (1/100) ltac:(cbn; tauto)). cbn [ex_u p_alpha length] in Hi.
    do 11 (destruct i as [|i]; [cbn in F; try lra; reflexivity|]). lia. }
  subst i. exists l. split; [exact E|]. rewrite H7, H6. cbn [ex_u p_alpha p_cd nth] in *.
  split; [reflexivity|]. split; [reflexivity|]. rewrite <- H6. apply Hn. lra.
Qed.

Lemma ex_v_fails : unsteadyparam (fun x y => match x with [] => Raise TypeError | _ => Ok (1, 0) end) (fun _ _ _ => 0) ex_v (-5) 5 =
  Raise TypeError.
Proof.
  apply unsteady_fails; [apply ex_v_wf|cbn; lia|apply ex_v_ten| |reflexivity].
  unfold ex_v. cbn [p_alpha]. repeat (apply Forall_cons; [right; lra|]). apply Forall_nil.
Qed.

Lemma ex_u_written : exists file,
  writeToAerodynFile (fun _ => lit "0") (fun _ => lit "1") (fun s => s)
    (fun p => unsteadyparam (fun _ _ => Ok (6, 0)) (fun _ _ _ => 0) p (-5) 5) [ex_u] = Ok file /\
  eventually (fun fuel => initFromAerodynFile small_float small_int fuel file) (Raise IndexError).
Proof.
  apply unreadable; try (intros; cbn; intuition discriminate); auto.
  - intros x y _ _. eauto.
  - intros i j Hij. cbn in Hij. lia.
  - constructor; [apply ex_u_wf|constructor].
  - exists ex_u, 0. cbn. split; [tauto|]. split; [tauto|lra].
Qed.
