(** Proofs about the text written by writeToAerodynFile (C96). *)
From Coq Require Import Ascii String.
From Coq Require Import Reals List Bool ZArith Permutation Lra Lia.
From Verif Require Import Prelim Polar AeroDyn AeroDynSpec InterpSpec PolarSpec WriteSpec PolarProofs AeroDynProofs UnsteadyProofs.
Import ListNotations.
Open Scope R_scope.

(** ** The text *)
Lemma zip4_map (f : R * (R * (R * R)) -> text) a : forall l d m, length l = length a -> length d = length a -> length m = length a ->
  map f (zip4 a l d m) = map (fun i => f (nth i a 0, (nth i l 0, (nth i d 0, nth i m 0)))) (seq 0 (length a)).
Proof.
  induction a as [|x a IH]; intros [|y l] [|z d] [|w m] H1 H2 H3; try discriminate; [reflexivity|].
  cbn [zip4 length seq map nth]. f_equal. rewrite <- seq_shift, map_map. cbn [nth]. apply IH; cbn in *; lia.
Qed.

Definition rect (p : polar) : Prop :=
  length (p_cl p) = length (p_alpha p) /\ length (p_cd p) = length (p_alpha p) /\ length (p_cm p) = length (p_alpha p).

Lemma table_written fmt_f unsteady p l : rect p -> unsteady p = Ok l ->
  write_table fmt_f padded unsteady p = Ok (concat (table_text fmt_f p l)).
Proof.
  intros (H1 & H2 & H3) E. unfold write_table. rewrite E. cbn [bind]. f_equal.
  unfold table_text. rewrite !concat_app. cbn [seq map concat nth param_labels]. rewrite !app_nil_r. unfold entry, labelled, tab.
  rewrite (zip4_map _ _ _ _ _ H1 H2 H3). cbn [fst snd].
  rewrite <- !app_assoc. cbn [app]. rewrite <- ?app_assoc. cbn [app]. unfold four. reflexivity.
Qed.

Lemma tables_written fmt_f unsteady common params : Forall rect common -> Forall2 (fun p l => unsteady p = Ok l) common params ->
  mapM (write_table fmt_f padded unsteady) common = Ok (map (fun t => concat (table_text fmt_f (fst t) (snd t))) (combine common params)).
Proof.
  intros R F. induction F as [|p l common params E F IH]; [reflexivity|]. inversion R; subst. cbn [mapM combine map fst snd].
  rewrite (table_written fmt_f unsteady p l) by assumption. cbn [bind]. rewrite IH by assumption. reflexivity.
Qed.

Lemma concat_concat {A} (l : list (list (list A))) : concat (map (@concat A) l) = concat (concat l).
Proof. induction l; [reflexivity|]. cbn [map concat]. rewrite concat_app. congruence. Qed.

Lemma file_written fmt_f fmt_d unsteady af common params : interpToCommonAlpha af None = Ok common -> Forall rect common ->
  Forall2 (fun p l => unsteady p = Ok l) common params ->
  writeToAerodynFile fmt_f fmt_d padded unsteady af = Ok (concat (file_text fmt_f fmt_d (combine common params))).
Proof.
  intros E Hr F. unfold writeToAerodynFile. rewrite E. cbn [bind]. rewrite (tables_written fmt_f unsteady common params Hr F). cbn [bind].
  f_equal. unfold file_text. rewrite concat_app. cbn [concat]. rewrite app_nil_r, <- !app_assoc. cbn [app].
  rewrite combine_length, <- (F2_len _ _ _ F), Nat.min_id. unfold tab. cbn [app]. rewrite <- ?app_assoc. cbn [app].
  do 4 apply (f_equal (app _)). do 2 apply (f_equal (cons _)). apply (f_equal (app _)).
  rewrite <- (map_map (fun t : polar * list R => table_text fmt_f (fst t) (snd t)) (@concat ascii)). apply concat_concat.
Qed.

(** ** Reading it, with newlines *)
Lemma lines_newlines ls : Forall (fun l => ~ In newline l) ls -> lines_of (with_newlines ls) ls.
Proof.
  unfold with_newlines. induction 1 as [|l ls H F IH]; [constructor|]. cbn [map concat]. rewrite <- app_assoc. cbn [app]. constructor; assumption.
Qed.

Lemma space_blank' : blank " "%char. Proof. cbn. tauto. Qed.
Lemma tab_blank : blank "009"%char. Proof. cbn. tauto. Qed.
Lemma spaces_blank k : Forall blank (repeat " "%char k).
Proof. induction k; constructor; [exact space_blank'|assumption]. Qed.

(** The first word of w ++ spaces ++ rest. *)
Lemma fields_first w k rest ws : w <> [] -> Forall (fun c => ~ blank c) w -> fields (repeat " "%char k ++ "009"%char :: rest) ws ->
  fields ((w ++ repeat " "%char k) ++ "009"%char :: rest) (w :: ws).
Proof.
  intros H1 H2 F. rewrite <- app_assoc. change (w ++ ?t) with ([] ++ w ++ t) at 1. apply fields_word; [constructor|exact H1|exact H2| |exact F].
  right. destruct k; cbn [repeat app]; eexists _, _; (split; [reflexivity|]); [apply tab_blank|apply space_blank'].
Qed.
Lemma fields_skip pre t ws : Forall blank pre -> fields t ws -> fields (pre ++ t) ws.
Proof.
  intros B F. destruct F as [l Hl|pre' w rest ws Hp Hw1 Hw2 Hr F].
  - constructor. apply Forall_app. auto.
  - rewrite app_assoc. constructor; auto. apply Forall_app. auto.
Qed.
Lemma spaces_tab k t ws : fields t ws -> fields (repeat " "%char k ++ "009"%char :: t) ws.
Proof.
  intros F. change (repeat " "%char k ++ "009"%char :: t) with (repeat " "%char k ++ ["009"%char] ++ t). rewrite app_assoc.
  apply fields_skip; [|exact F]. apply Forall_app. split; [apply spaces_blank|constructor; [exact tab_blank|constructor]].
Qed.
Lemma only_nb w : Forall (fun c => ~ blank c /\ c <> "T"%char) w -> Forall (fun c => ~ blank c) w.
Proof. apply Forall_impl. tauto. Qed.

Section Read.
Variable to_float : text -> option R.
Variable to_int : text -> option Z.
Variable fmt_f : R -> text.
Variable fmt_d : nat -> text.
Variable round : R -> R.
Hypothesis Hf : forall x, word_for to_float (fmt_f x) (round x).
Hypothesis Hd : forall n, word_for to_int (fmt_d n) (Z.of_nat n).

Lemma blank_no_nl {A} (m : text -> option A) t v : word_for m t v -> ~ In newline t.
Proof.
  intros (w & k & -> & _ & F & _) I. apply in_app_or in I. destruct I as [I|I].
  - rewrite Forall_forall in F. exact (proj1 (F _ I) blank_nl).
  - apply repeat_spec in I. discriminate.
Qed.
Lemma word_no_T {A} (m : text -> option A) t v : word_for m t v -> ~ In "T"%char t.
Proof.
  intros (w & k & -> & _ & F & _) I. apply in_app_or in I. destruct I as [I|I].
  - rewrite Forall_forall in F. apply (proj2 (F _ I)). reflexivity.
  - apply repeat_spec in I. discriminate.
Qed.

Lemma labelled_number x s : starts_with_number to_float (labelled fmt_f x s) (round x).
Proof.
  destruct (Hf x) as (w & k & E & H1 & H2 & H3). unfold labelled. rewrite E.
  destruct (fields_total (padded (lit s))) as (ws & F). exists w, ws. split; [|exact H3].
  apply fields_first; [exact H1|apply only_nb, H2|]. apply spaces_tab, F.
Qed.

Lemma four_row a l d m : row_line to_float (four fmt_f a l d m) (mkRow (round a) (round l) (round d) (round m)).
Proof.
  split.
  - intros (u & v & E). assert (I : In "T"%char (four fmt_f a l d m)). { rewrite E. apply in_or_app. right. apply in_or_app. left. cbn. tauto. }
    unfold four in I. repeat (apply in_app_or in I; destruct I as [I|[I|I]]; [exact (word_no_T _ _ _ (Hf _) I)|discriminate|]).
    exact (word_no_T _ _ _ (Hf _) I).
  - destruct (Hf a) as (w1 & k1 & E1 & A1 & B1 & C1). destruct (Hf l) as (w2 & k2 & E2 & A2 & B2 & C2).
    destruct (Hf d) as (w3 & k3 & E3 & A3 & B3 & C3). destruct (Hf m) as (w4 & k4 & E4 & A4 & B4 & C4).
    exists w1, w2, w3, w4, []. split; [|cbn; auto 6]. unfold four. rewrite E1, E2, E3, E4.
    repeat (apply fields_first; [assumption|apply only_nb; assumption|]; apply spaces_tab).
    change (w4 ++ ?t) with ([] ++ w4 ++ t). apply fields_word; [constructor|exact A4|apply only_nb, B4| |].
    + destruct k4; [left; reflexivity|right; cbn; eexists _, _; split; [reflexivity|apply space_blank']].
    + constructor. apply spaces_blank.
Qed.

Definition table_of (p : polar) : table :=
  mkTable (round (p_Re p / 1000000))
    (map (fun i => mkRow (round (nth i (p_alpha p) 0)) (round (nth i (p_cl p) 0)) (round (nth i (p_cd p) 0)) (round (nth i (p_cm p) 0)))
       (seq 0 (length (p_alpha p)))).

Lemma table_text_lines p l : table_lines to_float (table_text fmt_f p l) (table_of p).
Proof.
  unfold table_text. eexists _, _, _. split; [reflexivity|]. split; [|split].
  - eexists _, _. split; [reflexivity|]. split; [apply labelled_number|]. split; [reflexivity|].
    repeat (apply Forall_cons; [eexists; apply labelled_number|]). constructor.
  - cbn [tb_rows table_of]. induction (seq 0 (length (p_alpha p))); cbn [map]; constructor; [apply four_row|assumption].
  - exists [], []. reflexivity.
Qed.

Lemma map_nth_seq (f : R -> R) l : map (fun i => f (nth i l 0)) (seq 0 (length l)) = map f l.
Proof. rewrite <- (map_map (fun i => nth i l 0) f). f_equal. symmetry. apply as_map. Qed.

Lemma polar_of_table p : rect p -> polar_of (table_of p) = on_paper round p.
Proof.
  intros (H1 & H2 & H3). unfold polar_of, on_paper, table_of. cbn [tb_Re tb_rows]. rewrite !map_map. cbn [row_alpha row_cl row_cd row_cm].
  rewrite map_nth_seq. rewrite <- H1 at 1. rewrite map_nth_seq. rewrite <- H2 at 1. rewrite map_nth_seq. rewrite <- H3, map_nth_seq. reflexivity.
Qed.

Lemma no_nl_lit : Forall (fun s => ~ In newline (padded (lit s)))
  ["Reynolds number in millions."; "Control setting"; "Stall angle (deg)"; "Angle of attack for zero Cn for linear Cn curve (deg)";
   "Cn slope for zero lift for linear Cn curve (1/rad)"; "Cn at stall value for positive angle of attack for linear Cn curve";
   "Cn at stall value for negative angle of attack for linear Cn curve"; "Angle of attack for minimum CD (deg)"; "Minimum CD value";
   "Number of airfoil tables in this file"]%string.
Proof.
  repeat constructor; intros I; apply in_app_or in I; (destruct I as [I|I]; [revert I; cbn; intuition discriminate|apply repeat_spec in I; discriminate]).
Qed.
Lemma labelled_nl x s : ~ In newline (padded (lit s)) -> ~ In newline (labelled fmt_f x s).
Proof.
  intros H I. unfold labelled in I. apply in_app_or in I. destruct I as [I|[I|I]]; [exact (blank_no_nl _ _ _ (Hf x) I)|discriminate|auto].
Qed.
Lemma table_nl p l : Forall (fun t => ~ In newline t) (table_text fmt_f p l).
Proof.
  pose proof no_nl_lit as N. repeat match goal with H : Forall _ (_ :: _) |- _ => inversion H; clear H; subst end.
  unfold table_text. apply Forall_app. split; [|apply Forall_app; split].
  - repeat (apply Forall_cons; [apply labelled_nl; assumption|]). constructor.
  - apply Forall_forall. intros t I. apply in_map_iff in I. destruct I as (i & <- & _). unfold four. intros I.
    repeat (apply in_app_or in I; destruct I as [I|[I|I]]; [exact (blank_no_nl _ _ _ (Hf _) I)|discriminate|]).
    exact (blank_no_nl _ _ _ (Hf _) I).
  - constructor; [|constructor]. cbn. intuition discriminate.
Qed.
Lemma file_nl ts : Forall (fun t => ~ In newline t) (file_text fmt_f fmt_d ts).
Proof.
  pose proof no_nl_lit as N. repeat match goal with H : Forall _ (_ :: _) |- _ => inversion H; clear H; subst end.
  unfold file_text. apply Forall_app. split.
  - do 3 (apply Forall_cons; [cbn; intuition discriminate|]). constructor; [|constructor].
    intros I. apply in_app_or in I. destruct I as [I|[I|[I|I]]]; [exact (blank_no_nl _ _ _ (Hd _) I)|discriminate|discriminate|auto].
  - apply Forall_forall. intros t I. apply in_concat in I. destruct I as (ls & I & It). apply in_map_iff in I. destruct I as ([p l] & <- & _).
    pose proof (table_nl p l) as F. rewrite Forall_forall in F. apply F. exact It.
Qed.

(** Two sorted airfoils with the same polars at each Reynolds number are the same. *)
Lemma sorted_unique : forall l1 l2, sorted_by_Re l1 -> sorted_by_Re l2 -> (forall r, at_Re r l1 = at_Re r l2) -> l1 = l2.
Proof.
  intros l1 l2 S1 S2. apply sorted_ss in S1. apply sorted_ss in S2. revert l2 S2.
  assert (M : forall r (p : polar) l, at_Re r (p :: l) = (if reqb (p_Re p) r then [p] else []) ++ at_Re r l).
  { intros r p l. unfold at_Re. cbn. destruct (reqb (p_Re p) r); reflexivity. }
  assert (I0 : forall p l, In p l -> In p (at_Re (p_Re p) l)).
  { intros p l I. apply filter_In. split; [exact I|apply reqb_true; reflexivity]. }
  assert (I1 : forall p r l, In p (at_Re r l) -> In p l) by (intros p r l I; apply filter_In in I; tauto).
  induction S1 as [|x l1 S1 IH F1]; intros l2 S2 H.
  - destruct l2 as [|y l2]; [reflexivity|]. exfalso. pose proof (I0 y (y :: l2) (or_introl eq_refl)) as I. rewrite <- H in I. destruct I.
  - destruct S2 as [|y l2 S2 F2].
    { exfalso. pose proof (I0 x (x :: l1) (or_introl eq_refl)) as I. rewrite H in I. destruct I. }
    rewrite Forall_forall in F1, F2.
    assert (E : p_Re x = p_Re y).
    { assert (A : p_Re y <= p_Re x).
      { pose proof (I0 x (x :: l1) (or_introl eq_refl)) as I. rewrite H in I. apply I1 in I. destruct I as [->|I]; [lra|]. apply (F2 _ I). }
      assert (B : p_Re x <= p_Re y).
      { pose proof (I0 y (y :: l2) (or_introl eq_refl)) as I. rewrite <- H in I. apply I1 in I. destruct I as [->|I]; [lra|]. apply (F1 _ I). }
      lra. }
    assert (E' : x = y).
    { pose proof (H (p_Re x)) as H'. rewrite !M in H'. rewrite <- E in H'. rewrite (proj2 (reqb_true _ _) eq_refl) in H'. cbn in H'. congruence. }
    subst y. f_equal. apply IH; [exact S2|]. intros r. specialize (H r). rewrite !M in H. apply app_inv_head in H. exact H.
Qed.

Lemma reads_back common params : common <> [] -> sorted_by_Re common -> Forall rect common -> length params = length common ->
  (forall x y, x <= y -> round x <= round y) ->
  eventually (fun fuel => initFromAerodynFile to_float to_int fuel (with_newlines (file_text fmt_f fmt_d (combine common params))))
    (Ok (map (on_paper round) common)).
Proof.
  intros Hne Hs Hr Hl Hm. set (ts := combine common params).
  assert (Et : map polar_of (map (fun t => table_of (fst t)) ts) = map (on_paper round) common).
  { rewrite map_map. unfold ts. clear ts Hne Hs. revert params Hl. induction Hr as [|p common Rp Hr IH]; intros [|l params] Hl; try discriminate; [reflexivity|].
    cbn [combine map fst]. rewrite polar_of_table by exact Rp. f_equal. apply IH. cbn in Hl. lia. }
  assert (Lt : length ts = length common) by (unfold ts; rewrite combine_length; lia).
  pose proof (lines_newlines _ (file_nl ts)) as L. unfold file_text at 2 in L. cbn [app] in L.
  rewrite <- (app_nil_r (concat _)) in L.
  destruct (recovers to_float to_int _ _ _ _ _ _ (map (fun t => table_of (fst t)) ts) [] L) as (af & E & P & S & A).
  - destruct (Hd (length ts)) as (w & k & E & H1 & H2 & H3). rewrite E. rewrite map_length.
    destruct (fields_total ("009"%char :: padded (lit "Number of airfoil tables in this file"))) as (ws & F).
    exists w, ws. split; [|exact H3]. apply fields_first; [exact H1|apply only_nb, H2|]. apply spaces_tab, F.
  - assert (G : forall l, Forall2 (table_lines to_float) (map (fun t : polar * list R => table_text fmt_f (fst t) (snd t)) l) (map (fun t => table_of (fst t)) l)).
    { induction l; cbn [map]; constructor; [apply table_text_lines|assumption]. }
    apply G.
  - intros Z. apply map_eq_nil in Z. rewrite Z in Lt. destruct common; [congruence|discriminate].
  - rewrite Et in A. replace (map (on_paper round) common) with af; [exact E|]. apply sorted_unique; [exact S| |exact A].
    unfold sorted_by_Re in *. rewrite map_map. cbn [on_paper p_Re]. intros i j Hij. rewrite map_length in Hij.
    assert (Q : forall k, (k < length common)%nat -> nth k (map (fun p => round (p_Re p / 1000000) * 1000000) common) 0 = round (nth k (map p_Re common) 0 / 1000000) * 1000000).
    { intros k Hk. rewrite (nth_indep _ 0 (round (p_Re polar0 / 1000000) * 1000000)) by (rewrite map_length; exact Hk).
      rewrite (map_nth (fun p => round (p_Re p / 1000000) * 1000000)). rewrite (nth_indep (map p_Re common) 0 (p_Re polar0)) by (rewrite map_length; exact Hk).
      rewrite map_nth. reflexivity. }
    rewrite !Q by lia. specialize (Hs i j). rewrite map_length in Hs. specialize (Hs Hij).
    assert (round (nth i (map p_Re common) 0 / 1000000) <= round (nth j (map p_Re common) 0 / 1000000)); [|lra]. apply Hm. lra.
Qed.
End Read.

Lemma unsteady_eight polyfit raw_interp p lo hi l : unsteadyparam polyfit raw_interp p lo hi = Ok l -> length l = 8%nat.
Proof.
  unfold unsteadyparam. destruct (_ || _); [intros H; apply ok_inj in H; subst l; reflexivity|]. cbv zeta.
  destruct (polyfit _ _) as [mc|]; cbn [bind]; [|discriminate]. destruct (np_interp _ _ _) as [u|]; cbn [bind]; [|discriminate].
  destruct (np_interp _ _ _) as [v|]; cbn [bind]; [|discriminate]. destruct (argmin _) as [i|]; cbn [bind]; [|discriminate].
  intros H. apply ok_inj in H. subst l. reflexivity.
Qed.

Lemma written fmt_f fmt_d polyfit raw_interp af :
  (forall x y, x <> [] -> length x = length y -> exists mc, polyfit x y = Ok mc) ->
  af <> [] -> sorted_by_Re af -> Forall wf_polar af -> (exists p a, In p af /\ In a (p_alpha p) /\ -5 <= a <= 5) ->
  exists common params,
    interpToCommonAlpha af None = Ok common /\ common <> [] /\ sorted_by_Re common /\ Forall rect common /\
    Forall2 (fun p l => unsteadyparam polyfit raw_interp p (-5) 5 = Ok l /\ length l = 8%nat) common params /\
    writeToAerodynFile fmt_f fmt_d padded (fun p => unsteadyparam polyfit raw_interp p (-5) 5) af = Ok (concat (file_text fmt_f fmt_d (combine common params))).
Proof.
  intros Hpf Hne Hs Hw (p0 & a & Hp0 & Ha & Hr).
  destruct (common_unified af Hne Hs Hw) as (af' & grid & E & Hi & Hg & F & _).
  assert (Hag : In a grid) by (apply Hg; eauto).
  assert (G : forall q, In q af' -> p_alpha q = grid /\ forall k, length (col k q) = length grid).
  { clear - F. intros q Hq. induction F as [|x y l m (_ & H1 & H2) F IH]; [destruct Hq|].
    destruct Hq as [<-|Hq]; [split; [exact H1|intros k; apply H2]|apply IH, Hq]. }
  assert (RC : Forall rect af').
  { apply Forall_forall. intros q Hq. destruct (G q Hq) as [G1 G2]. unfold rect. rewrite G1. exact (conj (G2 CL) (conj (G2 CD) (G2 CM))). }
  assert (U : exists params, Forall2 (fun p l => unsteadyparam polyfit raw_interp p (-5) 5 = Ok l /\ length l = 8%nat) af' params).
  { assert (U : forall q, In q af' -> exists l, unsteadyparam polyfit raw_interp q (-5) 5 = Ok l).
    { intros q Hq. destruct (G q Hq) as [G1 G2]. apply unsteady_ok; [|exists a; rewrite G1; auto|exact Hpf].
      unfold wf_polar. rewrite G1. split; [intros Z; rewrite Z in Hag; destruct Hag|]. split; [exact Hi|].
      exact (conj (G2 CL) (conj (G2 CD) (G2 CM))). }
    clear - U. induction af' as [|q af' IH]; [exists []; constructor|]. destruct (U q (or_introl eq_refl)) as (l & El).
    destruct IH as (ps & Hps); [intros q' Hq'; apply U; right; exact Hq'|]. exists (l :: ps). constructor; [|exact Hps]. split; [exact El|].
    exact (unsteady_eight _ _ _ _ _ _ El). }
  destruct U as (params & U). exists af', params. split; [exact E|]. split; [|split; [|split; [exact RC|split; [exact U|]]]].
  - intros ->. inversion F; subst. congruence.
  - unfold sorted_by_Re in *. replace (map p_Re af') with (map p_Re af); [exact Hs|]. clear - F. induction F as [|x y l m (H & _) F IH]; [reflexivity|].
    cbn [map]. congruence.
  - apply file_written; [exact E|exact RC|]. clear - U. induction U as [|x y l m (H & _) U IH]; constructor; assumption.
Qed.
