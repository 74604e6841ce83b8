(** Proofs about the flap routine (C115 to C118). *)
From Coq Require Import Ascii String.
From Coq Require Import Reals List Bool Arith Lia FunctionalExtensionality.
From Verif Require Import Prelim AeroDyn Flap FlapSpec.
Import ListNotations.
Open Scope list_scope.

(** ** Files *)
Lemma teq_true a b : teq a b = true <-> a = b.
Proof. unfold teq. destruct (list_eq_dec ascii_dec a b); split; intros; try assumption; try reflexivity; try discriminate; contradiction. Qed.
Lemma teq_refl a : teq a a = true. Proof. apply teq_true. reflexivity. Qed.
Lemma teq_false a b : a <> b -> teq a b = false.
Proof. intros H. destruct (teq a b) eqn:E; [|reflexivity]. apply teq_true in E. contradiction. Qed.

Lemma clean_remove d f : clean d f = remove d f.
Proof.
  unfold clean, exists_. destruct (d f) eqn:E; [reflexivity|]. apply functional_extensionality. intros g. unfold remove.
  destruct (teq g f) eqn:T; [|reflexivity]. apply teq_true in T. subst g. exact E.
Qed.
Lemma remove_same d f : remove d f f = None. Proof. unfold remove. rewrite teq_refl. reflexivity. Qed.
Lemma remove_other d f g : g <> f -> remove d f g = d g. Proof. intros H. unfold remove. rewrite teq_false by exact H. reflexivity. Qed.
Lemma remove_gone d f g : d g = None -> remove d f g = None.
Proof. intros H. unfold remove. rewrite H. destruct (teq g f); reflexivity. Qed.
Lemma write_same d f t : write d f t f = Some t. Proof. unfold write. rewrite teq_refl. reflexivity. Qed.
Lemma write_other d f t g : g <> f -> write d f t g = d g. Proof. intros H. unfold write. rewrite teq_false by exact H. reflexivity. Qed.

(** ** Names *)
Lemma digit_run a b c x y : Forall is_digit a -> Forall is_digit b -> ~ is_digit c -> a ++ c :: x = b ++ c :: y -> a = b.
Proof.
  intros Ha. revert b. induction Ha as [|k a Hk Ha IH]; intros b Hb Hc E.
  - destruct b as [|m b]; [reflexivity|]. cbn in E. injection E; intros _ ->. inversion Hb; subst. contradiction.
  - destruct b as [|m b]; cbn in E; injection E; intros E' ->; [contradiction|]. inversion Hb; subst. f_equal. apply IH; assumption.
Qed.

Lemma decimal_end p : decimal p -> exists c l, rev p = c :: l /\ is_digit c.
Proof.
  intros [Hn Hp]. apply Forall_rev in Hp. destruct (rev p) as [|c l] eqn:E.
  - contradiction Hn. rewrite <- (rev_involutive p), E. reflexivity.
  - inversion Hp; subst. eauto.
Qed.
Lemma not_digit_t : ~ is_digit "t"%char. Proof. unfold is_digit. cbn. lia. Qed.
Lemma not_digit_p : ~ is_digit "p"%char. Proof. unfold is_digit. cbn. lia. Qed.
Lemma not_digit_ : ~ is_digit "_"%char. Proof. unfold is_digit. cbn. lia. Qed.

Definition pid_ok (pid : option text) : Prop := match pid with Some p => decimal p | None => True end.

(** Ends of the names, read backwards. *)
Definition ends (s : string) (t : text) : Prop := exists l, rev t = list_ascii_of_string s ++ l.
Lemma ends_app s a : ends s (a ++ rev (list_ascii_of_string s)).
Proof. exists (rev a). rewrite rev_app_distr, rev_involutive. reflexivity. Qed.
Ltac different := intros E; apply (f_equal (@rev ascii)) in E; rewrite ?rev_app_distr in E; cbn in E; discriminate E.

Lemma names_distinct A df pid : pid_ok pid -> let n := file_names A df pid in
  n_coords n <> n_save n /\ n_coords n <> n_script n /\ n_coords n <> n_null n /\ n_save n <> n_script n /\ n_save n <> n_null n /\ n_script n <> n_null n.
Proof.
  intros Hp. destruct pid as [p|]; cbn [file_names n_coords n_save n_script n_null pid_ok] in *.
  - destruct (decimal_end p Hp) as (c & l & Ec & Hc).
    assert (N : forall t, (exists u, rev t = "t"%char :: u) -> t <> lit "NUL_" ++ p).
    { intros t (u & Hu) E. apply (f_equal (@rev ascii)) in E. rewrite Hu, rev_app_distr, Ec in E. cbn [app] in E. injection E. intros _ <-.
      exact (not_digit_t Hc). }
    refine (conj _ (conj _ (conj _ (conj _ (conj _ _))))).
    + different.
    + different.
    + apply N. rewrite !rev_app_distr. cbn. eauto.
    + intros E. rewrite !app_assoc in E. apply app_inv_tail in E. apply app_inv_tail in E. revert E. different.
    + apply N. rewrite !rev_app_distr. cbn. eauto.
    + apply N. rewrite !rev_app_distr. cbn. eauto.
  - refine (conj _ (conj _ (conj _ (conj _ (conj _ _))))); different.
Qed.

(** Two processes. *)
Lemma same_tail a b p q t : decimal p -> decimal q -> (a ++ lit "p") ++ p ++ t = (b ++ lit "p") ++ q ++ t -> p = q.
Proof.
  intros [_ Hp] [_ Hq] E. rewrite !app_assoc in E. apply app_inv_tail in E. apply (f_equal (@rev ascii)) in E. rewrite !rev_app_distr in E. cbn in E.
  apply digit_run in E; try (apply Forall_rev; assumption); [|exact not_digit_p].
  rewrite <- (rev_involutive p), E. apply rev_involutive.
Qed.

Lemma names_apart A A' df df' p q : decimal p -> decimal q -> p <> q -> forall f, working (file_names A df (Some p)) f -> working (file_names A' df' (Some q)) f -> False.
Proof.
  intros Hp Hq Hne f. unfold working. cbn [file_names n_coords n_save n_script n_null].
  assert (N : forall r t, decimal r -> (exists u, rev t = "t"%char :: u) -> t <> lit "NUL_" ++ r).
  { intros r t Hr (u & Hu) E. destruct (decimal_end r Hr) as (c & l & Ec & Hc). apply (f_equal (@rev ascii)) in E. rewrite Hu, rev_app_distr, Ec in E.
    cbn [app] in E. injection E. intros _ <-. exact (not_digit_t Hc). }
  assert (T : forall a b, (a ++ lit "p") ++ p ++ lit ".txt" <> (b ++ lit "p") ++ q ++ lit ".txt").
  { intros a b E. apply Hne. exact (same_tail a b p q _ Hp Hq E). }
  assert (D : forall a b, (a ++ lit "p") ++ p ++ lit ".dat" <> (b ++ lit "p") ++ q ++ lit ".dat").
  { intros a b E. apply Hne. exact (same_tail a b p q _ Hp Hq E). }
  assert (E1 : forall B d r, B ++ lit "_" ++ d ++ lit "_Airfoil_p" ++ r ++ lit ".txt" = ((B ++ lit "_" ++ d ++ lit "_Airfoil_") ++ lit "p") ++ r ++ lit ".txt").
  { intros B d r. change (lit "_Airfoil_p") with (lit "_Airfoil_" ++ lit "p"). rewrite <- !app_assoc. reflexivity. }
  intros [-> | [-> | [-> | ->]]] [H | [H | [H | H]]].
  - exact (D (lit "profilecoords_") (lit "profilecoords_") H).
  - revert H. different.
  - revert H. different.
  - revert H. apply N; [exact Hq|]. rewrite !rev_app_distr. cbn. eauto.
  - revert H. different.
  - rewrite !E1 in H. exact (T _ _ H).
  - rewrite E1 in H. exact (T _ (lit "xfoil_input_") H).
  - revert H. apply N; [exact Hq|]. rewrite !rev_app_distr. cbn. eauto.
  - revert H. different.
  - rewrite E1 in H. exact (T (lit "xfoil_input_") _ H).
  - exact (T (lit "xfoil_input_") (lit "xfoil_input_") H).
  - revert H. apply N; [exact Hq|]. rewrite !rev_app_distr. cbn. eauto.
  - symmetry in H. revert H. apply N; [exact Hp|]. rewrite !rev_app_distr. cbn. eauto.
  - symmetry in H. revert H. apply N; [exact Hp|]. rewrite !rev_app_distr. cbn. eauto.
  - symmetry in H. revert H. apply N; [exact Hp|]. rewrite !rev_app_distr. cbn. eauto.
  - apply app_inv_head in H. contradiction.
Qed.

(** ** The routine *)
Section Routine.
Variables (str : R -> text) (savetxt : list R -> list R -> text) (loadtxt : text -> res (list (list R))) (system : text -> dir -> dir).
Variables (o : flap_obj) (path : text) (delta xc yt : R) (nn : text) (pid : option text).
Let n := file_names (fo_name o) (str delta) pid.
Let call := af_flap_coords str savetxt loadtxt system o path delta xc yt nn pid.
Let start (d : dir) : dir := remove (remove (remove (remove d (n_save n)) (n_coords n)) (n_script n)) (n_null n).
Let input := script (fo_name o) (str delta) (str xc) (str yt) nn n.
Let ready (d : dir) : dir :=
  write (write (start d) (n_coords n) (savetxt (fo_x o) (fo_y o))) (n_script n) (script (fo_name o) (str delta) (str xc) (str yt) nn n).

Lemma call_unfold d : call d =
  if negb (Nat.eqb (length (fo_x o)) (length (fo_y o))) then (start d, Raise OtherException) else
  match read_back loadtxt (system (command path n) (ready d)) (n_save n) with
  | Raise e => (system (command path n) (ready d), Raise e)
  | Ok xy => (remove (remove (remove (remove (system (command path n) (ready d)) (n_coords n)) (n_script n)) (n_save n)) (n_null n),
              Ok (mkFlapObj (fo_x o) (fo_y o) (fo_name o) (Some xy) (Some delta)))
  end.
Proof. unfold call, af_flap_coords. cbv zeta. rewrite !clean_remove. reflexivity. Qed.

Lemma start_working d f : working n f -> start d f = None.
Proof.
  intros [-> | [-> | [-> | ->]]]; unfold start.
  - apply remove_gone, remove_gone, remove_same.
  - apply remove_gone, remove_gone, remove_gone, remove_same.
  - apply remove_gone, remove_same.
  - apply remove_same.
Qed.
Lemma start_other d f : ~ working n f -> start d f = d f.
Proof. intros H. unfold working in H. unfold start. rewrite !remove_other by (intros ->; apply H; tauto). reflexivity. Qed.

Lemma cleans_up d d' o' : call d = (d', Ok o') -> forall f, working n f -> d' f = None.
Proof.
  rewrite call_unfold. destruct (negb _); [discriminate|]. destruct (read_back _ _ _) as [xy|e]; [|discriminate].
  intros E. apply pair_equal_spec in E as [<- _]. intros f [-> | [-> | [-> | ->]]].
  - apply remove_gone, remove_gone, remove_gone, remove_same.
  - apply remove_gone, remove_same.
  - apply remove_gone, remove_gone, remove_same.
  - apply remove_same.
Qed.
Lemma leaves_others d d' r : only_results system (command path n) n input -> call d = (d', r) -> forall f, ~ working n f -> d' f = d f.
Proof.
  intros Ho. rewrite call_unfold. intros E f Hf. assert (Hf' := Hf). unfold working in Hf.
  assert (Sys : system (command path n) (ready d) f = d f).
  { rewrite Ho by (first [apply write_same|intros ->; apply Hf; tauto]). unfold ready. rewrite !write_other by (intros ->; apply Hf; tauto). apply start_other. exact Hf'. }
  destruct (negb _); [apply pair_equal_spec in E as [<- _]; apply start_other; exact Hf'|].
  destruct (read_back _ _ _) as [xy|e]; apply pair_equal_spec in E as [<- _]; [|exact Sys].
  rewrite !remove_other by (intros ->; apply Hf; tauto). exact Sys.
Qed.
Lemma no_stale d1 d2 : (forall f, ~ working n f -> d1 f = d2 f) -> call d1 = call d2.
Proof.
  intros H. assert (S : start d1 = start d2).
  { apply functional_extensionality. intros f.
    assert (D : working n f \/ ~ working n f).
    { unfold working. destruct (list_eq_dec ascii_dec f (n_coords n)); [tauto|]. destruct (list_eq_dec ascii_dec f (n_save n)); [tauto|].
      destruct (list_eq_dec ascii_dec f (n_script n)); [tauto|]. destruct (list_eq_dec ascii_dec f (n_null n)); tauto. }
    destruct D as [D|D]; [rewrite !start_working by exact D; reflexivity|]. rewrite !start_other by exact D. apply H. exact D. }
  rewrite !call_unfold. unfold ready. rewrite S. reflexivity.
Qed.
Lemma keeps_profile d d' o' : call d = (d', Ok o') -> fo_x o' = fo_x o /\ fo_y o' = fo_y o /\ fo_name o' = fo_name o /\ fo_ctrl o' = Some delta.
Proof.
  rewrite call_unfold. destruct (negb _); [discriminate|]. destruct (read_back _ _ _) as [xy|e]; [|discriminate].
  intros E. apply pair_equal_spec in E as [_ E]. injection E. intros <-. auto.
Qed.

Lemma no_result d : pid_ok pid -> only_results system (command path n) n input -> (forall d, d (n_script n) = Some input -> system (command path n) d (n_save n) = d (n_save n)) ->
  length (fo_x o) = length (fo_y o) ->
  exists d', call d = (d', Raise OtherException) /\ d' (n_coords n) = Some (savetxt (fo_x o) (fo_y o)) /\
             d' (n_script n) = Some (script (fo_name o) (str delta) (str xc) (str yt) nn n).
Proof.
  intros Hp Ho Hs Hl. destruct (names_distinct (fo_name o) (str delta) pid Hp) as (D1 & D2 & D3 & D4 & D5 & D6). fold n in D1, D2, D3, D4, D5, D6.
  rewrite call_unfold, Hl, Nat.eqb_refl. cbn [negb].
  assert (E : system (command path n) (ready d) (n_save n) = None).
  { rewrite Hs by apply write_same. unfold ready. rewrite write_other by exact D4. rewrite write_other by (apply not_eq_sym; exact D1). apply start_working. unfold working. tauto. }
  unfold read_back. rewrite E. eexists. split; [reflexivity|]. split.
  - rewrite Ho by (first [apply write_same|assumption]). unfold ready. rewrite write_other by exact D2. apply write_same.
  - rewrite Ho by (first [apply write_same|assumption|apply not_eq_sym; assumption]). unfold ready. apply write_same.
Qed.

Lemma ragged d : length (fo_x o) <> length (fo_y o) -> exists d', call d = (d', Raise OtherException) /\ forall f, working n f -> d' f = None.
Proof.
  intros H. rewrite call_unfold. apply Nat.eqb_neq in H. rewrite H. cbn [negb]. eexists. split; [reflexivity|]. intros f. apply start_working.
Qed.
End Routine.

(** ** XFOIL *)
Lemma lines_of l : Forall (fun t => Forall (fun c => c <> newline) t) l -> lines_from [] (concat (map (fun t => t ++ [newline]) l)) = l.
Proof.
  assert (G : forall t cur rest, Forall (fun c => c <> newline) t -> lines_from cur ((t ++ [newline]) ++ rest) = (cur ++ t) :: lines_from [] rest).
  { induction t as [|c t IH]; intros cur rest Ht; cbn [app lines_from].
    - rewrite Ascii.eqb_refl, app_nil_r. reflexivity.
    - inversion Ht; subst. assert (E : Ascii.eqb c newline = false) by (apply Ascii.eqb_neq; assumption). rewrite E, IH by assumption.
      rewrite <- app_assoc. reflexivity. }
  induction 1 as [|t l Ht Hl IH]; [reflexivity|]. cbn [map concat]. rewrite G by exact Ht. cbn [app]. rewrite IH. reflexivity.
Qed.

Lemma word_app a b : word a -> word b -> word (a ++ b).
Proof. intros. apply Forall_app. split; assumption. Qed.
Lemma word_lit s : forallb (fun c => negb (is_space c)) (list_ascii_of_string s) = true -> word (lit s).
Proof. intros H. apply Forall_forall. intros c Hc. rewrite forallb_forall in H. specialize (H c Hc). destruct (is_space c); [discriminate|reflexivity]. Qed.
Lemma word_decimal p : decimal p -> word p.
Proof.
  intros [_ H]. eapply Forall_impl; [|exact H]. intros c [H1 H2]. unfold is_space. apply orb_false_iff. split; apply andb_false_iff; right; apply Nat.leb_gt; lia.
Qed.
Lemma word_lines t : word t -> Forall (fun c => c <> newline) t.
Proof. intros H. eapply Forall_impl; [|exact H]. intros c Hc ->. discriminate Hc. Qed.
Lemma lit_lines s : forallb (fun c => negb (Ascii.eqb c newline)) (list_ascii_of_string s) = true -> Forall (fun c => c <> newline) (lit s).
Proof. intros H. apply Forall_forall. intros c Hc. rewrite forallb_forall in H. specialize (H c Hc). intros ->. discriminate H. Qed.

Lemma ltrim_word t : word t -> ltrim t = t.
Proof. intros H. destruct t as [|c t]; [reflexivity|]. inversion H; subst. cbn. rewrite H2. reflexivity. Qed.
Lemma trim_word t : word t -> trim t = t.
Proof. intros H. unfold trim. rewrite (ltrim_word t H). rewrite ltrim_word by (apply Forall_rev; exact H). apply rev_involutive. Qed.
Lemma trim_blank t : word t -> trim (t ++ lit " ") = t.
Proof.
  intros H. destruct t as [|c t]; [reflexivity|]. unfold trim. inversion H; subst. cbn [app ltrim]. rewrite H2.
  change (c :: t ++ lit " ") with ((c :: t) ++ lit " "). rewrite rev_app_distr. change (rev (lit " ")) with (lit " "). cbn [lit list_ascii_of_string app ltrim].
  replace (is_space " ") with true by reflexivity. rewrite ltrim_word by (apply Forall_rev; exact H). apply rev_involutive.
Qed.

Section Script.
Variables (geo : Type) (read : text -> option geo) (flap : geo -> text -> text -> text -> geo) (panel : geo -> text -> text -> geo) (print : geo -> text).
Variables (A df xc yt nn : text) (pid : option text) (n0 t0 : text) (d : dir) (g : geo) (co : text).
Let n := file_names A df pid.
Hypothesis (HA : word A) (Hdf : word df) (Hxc : word xc) (Hyt : word yt) (Hnn : word nn) (Hp : pid_ok pid).
Hypothesis (Hco : d (n_coords n) = Some co) (Hg : read co = Some g).

Lemma names_words : word (n_coords n) /\ word (n_save n).
Proof.
  unfold n. destruct pid as [p|]; cbn [file_names n_coords n_save pid_ok] in *.
  - apply word_decimal in Hp. split; repeat apply word_app; try assumption; apply word_lit; reflexivity.
  - split; repeat apply word_app; try assumption; apply word_lit; reflexivity.
Qed.

Lemma script_run : run_xfoil geo read flap panel print n0 t0 (script A df xc yt nn n) d (n_save n) =
  Some (print (panel (flap g xc yt df) nn (lit "0.5"))).
Proof.
  destruct names_words as [W1 W2]. unfold run_xfoil, script. rewrite lines_of.
  2:{ unfold script_lines. apply Forall_forall. intros t Ht. cbn [In] in Ht.
      repeat (destruct Ht as [<-|Ht]; [first [apply word_lines; assumption | apply lit_lines; reflexivity | apply Forall_nil
        | apply Forall_app; split; [apply word_lines; assumption|first [apply lit_lines; reflexivity | apply (Forall_app (fun c => c <> newline) (lit "_")); split; [apply lit_lines; reflexivity|apply word_lines; assumption]]]]|]).
      contradiction. }
  unfold script_lines. cbn [fold_left].
  assert (K : forall (P : xfoil geo -> Prop) x, P x -> P x) by auto.
  set (s0 := mkXfoil geo Top None None n0 t0 d).
  change (step geo read flap panel print s0 (lit "PLOP ")) with (mkXfoil geo Plot None None n0 t0 d). clear s0.
  change (step geo read flap panel print (mkXfoil geo Plot None None n0 t0 d) (lit " G ")) with (mkXfoil geo Plot None None n0 t0 d).
  change (step geo read flap panel print (mkXfoil geo Plot None None n0 t0 d) []) with (mkXfoil geo Top None None n0 t0 d).
  change (step geo read flap panel print (mkXfoil geo Top None None n0 t0 d) (lit "LOAD ")) with (mkXfoil geo LoadFile None None n0 t0 d).
  assert (S1 : step geo read flap panel print (mkXfoil geo LoadFile None None n0 t0 d) (n_coords n) = mkXfoil geo LoadName (Some g) (Some g) n0 t0 d).
  { unfold step. cbn [at_ files nodes ratio]. rewrite trim_word by exact W1. rewrite Hco, Hg. reflexivity. }
  rewrite S1. clear S1.
  change (step geo read flap panel print (mkXfoil geo LoadName (Some g) (Some g) n0 t0 d) A) with (mkXfoil geo Top (Some g) (Some g) n0 t0 d).
  change (step geo read flap panel print (mkXfoil geo Top (Some g) (Some g) n0 t0 d) (lit "GDES ")) with (mkXfoil geo Design (Some g) (Some g) n0 t0 d).
  change (step geo read flap panel print (mkXfoil geo Design (Some g) (Some g) n0 t0 d) (lit "FLAP ")) with (mkXfoil geo HingeX (Some g) (Some g) n0 t0 d).
  assert (S2 : step geo read flap panel print (mkXfoil geo HingeX (Some g) (Some g) n0 t0 d) xc = mkXfoil geo (HingeY xc) (Some g) (Some g) n0 t0 d).
  { unfold step. cbn [at_]. rewrite trim_word by exact Hxc. reflexivity. }
  rewrite S2. clear S2.
  change (step geo read flap panel print (mkXfoil geo (HingeY xc) (Some g) (Some g) n0 t0 d) (lit "999")) with (mkXfoil geo (HingeT xc) (Some g) (Some g) n0 t0 d).
  assert (S3 : step geo read flap panel print (mkXfoil geo (HingeT xc) (Some g) (Some g) n0 t0 d) yt = mkXfoil geo (Deflection xc yt) (Some g) (Some g) n0 t0 d).
  { unfold step. cbn [at_]. rewrite trim_word by exact Hyt. reflexivity. }
  rewrite S3. clear S3. set (gf := flap g xc yt df).
  assert (S4 : step geo read flap panel print (mkXfoil geo (Deflection xc yt) (Some g) (Some g) n0 t0 d) df = mkXfoil geo Design (Some g) (Some gf) n0 t0 d).
  { unfold step. cbn [at_]. rewrite trim_word by exact Hdf. reflexivity. }
  rewrite S4. clear S4.
  change (step geo read flap panel print (mkXfoil geo Design (Some g) (Some gf) n0 t0 d) (lit "NAME ")) with (mkXfoil geo NewName (Some g) (Some gf) n0 t0 d).
  change (step geo read flap panel print (mkXfoil geo NewName (Some g) (Some gf) n0 t0 d) (A ++ lit "_" ++ df)) with (mkXfoil geo Design (Some g) (Some gf) n0 t0 d).
  change (step geo read flap panel print (mkXfoil geo Design (Some g) (Some gf) n0 t0 d) (lit "EXEC ")) with (mkXfoil geo Design (Some gf) (Some gf) n0 t0 d).
  change (step geo read flap panel print (mkXfoil geo Design (Some gf) (Some gf) n0 t0 d) (lit " ")) with (mkXfoil geo Top (Some gf) (Some gf) n0 t0 d).
  change (step geo read flap panel print (mkXfoil geo Top (Some gf) (Some gf) n0 t0 d) (lit "PPAR")) with (mkXfoil geo (Panels false) (Some gf) (Some gf) n0 t0 d).
  change (step geo read flap panel print (mkXfoil geo (Panels false) (Some gf) (Some gf) n0 t0 d) (lit "N ")) with (mkXfoil geo NodesN (Some gf) (Some gf) n0 t0 d).
  assert (S5 : step geo read flap panel print (mkXfoil geo NodesN (Some gf) (Some gf) n0 t0 d) nn = mkXfoil geo (Panels true) (Some gf) (Some gf) nn t0 d).
  { unfold step. cbn [at_]. rewrite trim_word by exact Hnn. reflexivity. }
  rewrite S5. clear S5.
  change (step geo read flap panel print (mkXfoil geo (Panels true) (Some gf) (Some gf) nn t0 d) (lit "T ")) with (mkXfoil geo NodesT (Some gf) (Some gf) nn t0 d).
  change (step geo read flap panel print (mkXfoil geo NodesT (Some gf) (Some gf) nn t0 d) (lit "0.5")) with (mkXfoil geo (Panels true) (Some gf) (Some gf) nn (lit "0.5") d).
  set (gp := panel gf nn (lit "0.5")).
  change (step geo read flap panel print (mkXfoil geo (Panels true) (Some gf) (Some gf) nn (lit "0.5") d) []) with (mkXfoil geo Top (Some gp) (Some gf) nn (lit "0.5") d).
  change (step geo read flap panel print (mkXfoil geo Top (Some gp) (Some gf) nn (lit "0.5") d) []) with (mkXfoil geo Top (Some gp) (Some gf) nn (lit "0.5") d).
  change (step geo read flap panel print (mkXfoil geo Top (Some gp) (Some gf) nn (lit "0.5") d) (lit "PSAV ")) with (mkXfoil geo SaveFile (Some gp) (Some gf) nn (lit "0.5") d).
  set (d' := fun f => if teq f (n_save n) then Some (print gp) else d f).
  assert (S6 : step geo read flap panel print (mkXfoil geo SaveFile (Some gp) (Some gf) nn (lit "0.5") d) (n_save n ++ lit " ") = mkXfoil geo Top (Some gp) (Some gf) nn (lit "0.5") d').
  { unfold step. cbn [at_]. rewrite trim_blank by exact W2. reflexivity. }
  rewrite S6. clear S6.
  change (step geo read flap panel print (mkXfoil geo Top (Some gp) (Some gf) nn (lit "0.5") d') (lit " ")) with (mkXfoil geo Top (Some gp) (Some gf) nn (lit "0.5") d').
  change (step geo read flap panel print (mkXfoil geo Top (Some gp) (Some gf) nn (lit "0.5") d') (lit "QUIT ")) with (mkXfoil geo Gone (Some gp) (Some gf) nn (lit "0.5") d').
  cbn [files]. unfold d'. rewrite teq_refl. reflexivity.
Qed.
End Script.

Lemma flapped str savetxt loadtxt system o path delta xc yt nn pid d geo read flap panel print n0 t0 (g : geo) rows :
  let n := file_names (fo_name o) (str delta) pid in
  word (fo_name o) -> (forall x, word (str x)) -> word nn -> pid_ok pid -> length (fo_x o) = length (fo_y o) ->
  runs_xfoil geo read flap panel print system (command path n) (n_script n) (n_null n) n0 t0 ->
  read (savetxt (fo_x o) (fo_y o)) = Some g ->
  loadtxt (print (panel (flap g (str xc) (str yt) (str delta)) nn (lit "0.5"))) = Ok rows -> (2 <= length rows)%nat -> Forall (fun r => length r = 2%nat) rows ->
  exists d', af_flap_coords str savetxt loadtxt system o path delta xc yt nn pid d =
    (d', Ok (mkFlapObj (fo_x o) (fo_y o) (fo_name o) (Some (map (fun r => nth 0 r 0%R) rows, map (fun r => nth 1 r 0%R) rows)) (Some delta))).
Proof.
  intros n HA Hs Hnn Hp Hl Hx Hr Hload H2 Hw. destruct (names_distinct (fo_name o) (str delta) pid Hp) as (D1 & D2 & D3 & D4 & D5 & D6). fold n in D1, D2, D3, D4, D5, D6.
  rewrite call_unfold, Hl, Nat.eqb_refl. cbn [negb]. fold n.
  match goal with |- context [system (command path n) ?r] => set (rd := r) end.
  assert (E : system (command path n) rd (n_save n) = Some (print (panel (flap g (str xc) (str yt) (str delta)) nn (lit "0.5")))).
  { rewrite (Hx rd _ ltac:(apply write_same)) by exact D5. apply (script_run geo read flap panel print) with (co := savetxt (fo_x o) (fo_y o)); try assumption; try apply Hs.
    fold n. rewrite teq_false by exact D3. unfold rd. rewrite write_other by exact D2. apply write_same. }
  unfold read_back. rewrite E, Hload. cbn [bind]. unfold two_columns. apply Nat.leb_le in H2. rewrite H2. destruct rows as [|r rows]; [discriminate H2|].
  inversion Hw; subst. cbn [hd]. rewrite H1. cbn [Nat.leb andb]. eexists. reflexivity.
Qed.

Lemma short_table str savetxt loadtxt system o path delta xc yt nn pid d :
  let n := file_names (fo_name o) (str delta) pid in let input := script (fo_name o) (str delta) (str xc) (str yt) nn n in
  pid_ok pid -> only_results system (command path n) n input ->
  (forall d, d (n_script n) = Some input -> exists t rows, system (command path n) d (n_save n) = Some t /\ loadtxt t = Ok rows /\
     (length rows < 2 \/ length (hd [] rows) < 2)%nat) -> length (fo_x o) = length (fo_y o) ->
  exists d', af_flap_coords str savetxt loadtxt system o path delta xc yt nn pid d = (d', Raise IndexError) /\
    d' (n_coords n) = Some (savetxt (fo_x o) (fo_y o)) /\ d' (n_script n) = Some input /\ d' (n_save n) <> None.
Proof.
  intros n input Hp Ho Hx Hl. destruct (names_distinct (fo_name o) (str delta) pid Hp) as (D1 & D2 & D3 & D4 & D5 & D6). fold n in D1, D2, D3, D4, D5, D6.
  rewrite call_unfold, Hl, Nat.eqb_refl. cbn [negb]. fold n. fold input.
  match goal with |- context [system (command path n) ?r] => set (rd := r) end.
  assert (Hs : rd (n_script n) = Some input) by apply write_same.
  destruct (Hx rd Hs) as (t & rows & E & L & B). unfold read_back. rewrite E, L. cbn [bind]. unfold two_columns.
  replace (andb (Nat.leb 2 (length rows)) (Nat.leb 2 (length (hd [] rows)))) with false.
  2:{ symmetry. apply andb_false_iff. destruct B as [B|B]; [left|right]; apply Nat.leb_gt; exact B. }
  eexists. split; [reflexivity|]. split; [|split].
  - rewrite (Ho rd Hs) by (intros F; congruence). unfold rd. rewrite write_other by exact D2. apply write_same.
  - rewrite (Ho rd Hs) by (intros F; congruence). exact Hs.
  - rewrite E. discriminate.
Qed.

(** The name of the result file determines the deflection. *)
Lemma save_injective A df df' pid : n_save (file_names A df pid) = n_save (file_names A df' pid) -> df = df'.
Proof.
  destruct pid as [p|]; cbn [file_names n_save]; intros E; apply app_inv_head in E; apply app_inv_head in E; apply app_inv_tail in E; exact E.
Qed.
