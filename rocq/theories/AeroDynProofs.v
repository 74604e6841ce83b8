(** Proofs about the AeroDyn reader and writer. *)
From Coq Require Import Ascii String.
From Coq Require Import Reals List Bool ZArith Permutation Lra Lia.
From Verif Require Import Prelim Interp Polar PolarExt AeroDyn AeroDynSpec InterpSpec PolarSpec PolarProofs.
Import ListNotations.
Open Scope R_scope.

(** ** Lines *)
Lemma readline_nl l t : ~ In newline l -> readline (l ++ newline :: t) = (l ++ [newline], t).
Proof.
  induction l as [|c l IH]; intros H; cbn [app readline].
  - rewrite Ascii.eqb_refl. reflexivity.
  - destruct (Ascii.eqb_spec c newline) as [E|E]; [exfalso; apply H; left; exact E|].
    rewrite IH by (intros I; apply H; right; exact I). reflexivity.
Qed.

Lemma readline_last l : ~ In newline l -> readline l = (l, []).
Proof.
  induction l as [|c l IH]; intros H; cbn [readline]; [reflexivity|].
  destruct (Ascii.eqb_spec c newline) as [E|E]; [exfalso; apply H; left; exact E|].
  rewrite IH by (intros I; apply H; right; exact I). reflexivity.
Qed.

Lemma readline_shorter t : t <> [] -> (length (snd (readline t)) < length t)%nat.
Proof.
  induction t as [|c t IH]; [congruence|]. intros _. cbn [readline].
  destruct (Ascii.eqb c newline); [cbn; lia|].
  destruct (readline t) as [l r] eqn:E. cbn [snd] in *. cbn [length].
  destruct t as [|d t]; [cbn in E; inversion E; cbn; lia|]. specialize (IH ltac:(congruence)). lia.
Qed.

Lemma readline_le t : (length (snd (readline t)) <= length t)%nat.
Proof. destruct t as [|c t]; [cbn; lia|]. pose proof (readline_shorter (c :: t) ltac:(congruence)). lia. Qed.

Lemma readline_lines t l ls : lines_of t (l :: ls) ->
  exists e t', readline t = (l ++ e, t') /\ (e = [] \/ e = [newline]) /\ lines_of t' ls /\ (length t' < length t)%nat.
Proof.
  intros H. inversion H; subst.
  - exists [], []. rewrite app_nil_r, readline_last by assumption.
    repeat split; auto; [constructor|]. destruct l; [congruence|cbn; lia].
  - exists [newline], t0. rewrite readline_nl by assumption. repeat split; auto. rewrite app_length. cbn. lia.
Qed.

Lemma lines_nil t : lines_of t [] -> t = [].
Proof. intros H. inversion H. reflexivity. Qed.

Lemma lines_count t ls : lines_of t ls -> (length ls <= length t)%nat.
Proof.
  intros H. induction H as [|l Hl H|l t ls Hl H IH]; cbn [length]; [lia|destruct l; [congruence|cbn; lia]|].
  rewrite app_length. cbn [length]. lia.
Qed.

(** ** Words *)
Lemma space_blank c : is_space c = true <-> blank c.
Proof.
  split; intros H.
  - destruct c as [[] [] [] [] [] [] [] []]; cbn in H; try discriminate; cbn; tauto.
  - cbn in H. repeat (destruct H as [<-|H]; [reflexivity|]). contradiction.
Qed.
Lemma space_not_blank c : is_space c = false <-> ~ blank c.
Proof. rewrite <- space_blank. destruct (is_space c); split; intros; congruence. Qed.

Lemma split_skip pre t : Forall blank pre -> split_from [] (pre ++ t) = split_from [] t.
Proof.
  induction 1 as [|c pre Hc _ IH]; [reflexivity|]. cbn [app split_from].
  apply space_blank in Hc. rewrite Hc. exact IH.
Qed.
Lemma split_word w : forall cur t, Forall (fun c => ~ blank c) w -> split_from cur (w ++ t) = split_from (cur ++ w) t.
Proof.
  induction w as [|c w IH]; intros cur t H; [rewrite app_nil_r; reflexivity|].
  inversion H as [|? ? Hc Hw]; subst. cbn [app split_from]. apply space_not_blank in Hc. rewrite Hc, IH by assumption.
  rewrite <- app_assoc. reflexivity.
Qed.

Lemma split_fields l ws : fields l ws -> split l = ws.
Proof.
  unfold split. induction 1 as [l H|pre w rest ws Hp Hn Hw Hr _ IH].
  - rewrite <- (app_nil_r l). rewrite split_skip by assumption. reflexivity.
  - rewrite split_skip, split_word by assumption. cbn [app].
    destruct Hr as [-> | (c & r & -> & Hc)].
    + cbn in IH. cbn [split_from]. subst ws. destruct w; [congruence|reflexivity].
    + cbn [split_from] in *. apply space_blank in Hc. rewrite Hc in *. rewrite IH. destruct w; [congruence|reflexivity].
Qed.

Lemma blank_nl : blank newline. Proof. cbn. tauto. Qed.

Lemma fields_nl l ws : fields l ws -> fields (l ++ [newline]) ws.
Proof.
  induction 1 as [l H|pre w rest ws Hp Hn Hw Hr _ IH].
  - constructor. apply Forall_app. split; [assumption|]. constructor; [exact blank_nl|constructor].
  - rewrite <- !app_assoc. constructor; auto.
    right. destruct Hr as [-> | (c & r & -> & Hc)]; [exists newline, []|exists c, (r ++ [newline])]; auto using blank_nl.
Qed.

Lemma split_line l e ws : fields l ws -> e = [] \/ e = [newline] -> split (l ++ e) = ws.
Proof. intros H [-> | ->]; [rewrite app_nil_r; apply split_fields, H|apply split_fields, fields_nl, H]. Qed.

(** Every line has fields. *)
Lemma fields_total l : exists ws, fields l ws.
Proof.
  assert (H : forall n l, (length l <= n)%nat -> exists ws, fields l ws).
  { clear l. induction n as [|n IH]; intros l Hn.
    - destruct l; [|cbn in Hn; lia]. exists []. constructor. constructor.
    - assert (D : (exists ws, fields l ws) \/ exists pre c r, l = pre ++ c :: r /\ Forall blank pre /\ ~ blank c).
      { clear - l. induction l as [|c l IH]; [left; exists []; constructor; constructor|].
        destruct (is_space c) eqn:E.
        - apply space_blank in E. destruct IH as [[ws H]|(pre & d & r & -> & Hp & Hd)].
          + left. exists ws. inversion H; subst; [constructor; constructor; assumption|].
            change (c :: pre ++ w ++ rest) with ((c :: pre) ++ w ++ rest). constructor; auto.
          + right. exists (c :: pre), d, r. auto.
        - right. exists [], c, l. apply space_not_blank in E. auto. }
      destruct D as [D|(pre & c & r & -> & Hp & Hc)]; [exact D|].
      assert (W : exists w rest, c :: r = w ++ rest /\ w <> [] /\ Forall (fun c => ~ blank c) w /\
                   (rest = [] \/ exists c rest', rest = c :: rest' /\ blank c)).
      { clear - Hc. revert c Hc. induction r as [|d r IH]; intros c Hc.
        - exists [c], []. repeat split; auto; congruence.
        - destruct (is_space d) eqn:E.
          + exists [c], (d :: r). apply space_blank in E. repeat split; auto; [congruence|]. right. eauto.
          + apply space_not_blank in E. destruct (IH d E) as (w & rest & Ew & Hn & Hw & Hr).
            exists (c :: w), rest. rewrite Ew. repeat split; auto; congruence. }
      destruct W as (w & rest & Ew & Hn' & Hw & Hr). rewrite Ew.
      destruct (IH rest) as (ws & Hws).
      { assert (length (c :: r) = length (w ++ rest)) by (rewrite Ew; reflexivity).
        rewrite app_length in Hn. rewrite app_length in H. cbn [length] in *. destruct w; [congruence|]. cbn [length] in H. lia. }
      exists (w :: ws). constructor; assumption. }
  apply (H (length l) l). lia.
Qed.

(** ** Substrings *)
Lemma starts_spec pat t : starts pat t = true <-> exists b, t = pat ++ b.
Proof.
  revert t. induction pat as [|p pat IH]; intros t; cbn [starts].
  - split; [intros _; exists t; reflexivity|reflexivity].
  - destruct t as [|c t]; [split; [discriminate|intros (b & E); discriminate]|].
    rewrite andb_true_iff, IH, Ascii.eqb_eq. split.
    + intros [-> (b & ->)]. exists b. reflexivity.
    + intros (b & E). inversion E; subst. split; [reflexivity|exists b; reflexivity].
Qed.
Lemma contains_spec pat t : contains pat t = true <-> mentions pat t.
Proof.
  induction t as [|c t IH]; cbn [contains]; rewrite orb_true_iff, starts_spec.
  - split.
    + intros [(b & E)|E]; [exists [], b; exact E|discriminate].
    + intros (a & b & E). left. destruct a; [exists b; exact E|discriminate].
  - rewrite IH. split.
    + intros [(b & E)|(a & b & E)]; [exists [], b; exact E|exists (c :: a), b; cbn; congruence].
    + intros (a & b & E). destruct a as [|d a]; [left; exists b; exact E|right].
      exists a, b. cbn in E. inversion E. reflexivity.
Qed.

Lemma mentions_line l e : e = [] \/ e = [newline] -> mentions (lit "EOT") (l ++ e) <-> mentions (lit "EOT") l.
Proof.
  intros [-> | ->]; [rewrite app_nil_r; tauto|]. split.
  - intros (a & b & E). destruct b as [|c b] using rev_ind.
    + exfalso. rewrite app_nil_r in E. cbn in E. change ["E"; "O"; "T"]%char with (["E"; "O"] ++ ["T"])%char in E.
      rewrite app_assoc in E. apply app_inj_tail in E. destruct E as [_ E]. discriminate.
    + rewrite !app_assoc in E. apply app_inj_tail in E. destruct E as [E _]. exists a, b. rewrite E, app_assoc. reflexivity.
  - intros (a & b & ->). exists a, (b ++ [newline]). rewrite <- !app_assoc. reflexivity.
Qed.

Lemma contains_line l e : e = [] \/ e = [newline] ->
  contains (lit "EOT") (l ++ e) = contains (lit "EOT") l.
Proof.
  intros He. destruct (contains (lit "EOT") l) eqn:E.
  - apply contains_spec, mentions_line, contains_spec, E. exact He.
  - apply not_true_iff_false. rewrite contains_spec, mentions_line, <- contains_spec by exact He. congruence.
Qed.
Lemma contains_false l : ~ mentions (lit "EOT") l -> contains (lit "EOT") l = false.
Proof. intros H. apply not_true_iff_false. rewrite contains_spec. exact H. Qed.

(** ** Reading *)
Section Reader.
Variable to_float : text -> option R.
Variable to_int : text -> option Z.
Notation read_rows := (read_rows to_float).
Notation read_table := (read_table to_float).
Notation read_tables := (read_tables to_float).
Notation read_params := (read_params to_float).
Notation read_float := (read_float to_float).
Notation float_ := (float_ to_float).
Notation init := (initFromAerodynFile to_float to_int).

Lemma read_rows_total n : forall acc t, (length t < n)%nat ->
  exists r, (forall m, (length t < m)%nat -> read_rows m acc t = Some r) /\
    (forall a t', r = Ok (a, t') -> (length t' <= length t)%nat).
Proof.
  induction n as [|n IH]; intros acc t Hn; [lia|].
  destruct (list_eq_dec ascii_dec t []) as [->|Ht].
  - exists (Raise ValueError). split; [|congruence]. intros [|m] Hm; [lia|reflexivity].
  - pose proof (readline_shorter t Ht) as Hs. destruct (readline t) as [line t'] eqn:E. cbn [snd] in Hs.
    destruct (contains (lit "EOT") line) eqn:Ec.
    { exists (Ok (acc, t')). split.
      - intros [|m] Hm; [lia|]. cbn [AeroDyn.read_rows]. rewrite E, Ec. reflexivity.
      - intros a t'' H. inversion H; subst. lia. }
    destruct (mapM float_ (split line)) as [[|a [|l [|d [|m0 rest]]]]|e] eqn:Em.
    1-4: exists (Raise ValueError); split; [|congruence]; intros [|m] Hm; [lia|]; cbn [AeroDyn.read_rows]; rewrite E, Ec, Em; reflexivity.
    2: exists (Raise e); split; [|congruence]; intros [|m] Hm; [lia|]; cbn [AeroDyn.read_rows]; rewrite E, Ec, Em; reflexivity.
    destruct (IH (mkRows (r_alpha acc ++ [a]) (r_cl acc ++ [l]) (r_cd acc ++ [d]) (r_cm acc ++ [m0])) t' ltac:(lia)) as (r & H1 & H2).
    exists r. split.
    + intros [|m] Hm; [lia|]. cbn [AeroDyn.read_rows]. rewrite E, Ec, Em. apply H1. lia.
    + intros x y H. specialize (H2 x y H). lia.
Qed.

Lemma read_float_le t x t' : read_float t = Ok (x, t') -> (length t' <= length t)%nat.
Proof.
  unfold AeroDyn.read_float. pose proof (readline_le t). destruct (readline t) as [line r]. cbn [snd] in *.
  destruct (head (split line)); cbn [bind]; [|congruence]. destruct (float_ a); cbn [bind]; [|congruence].
  intros E. inversion E; subst. assumption.
Qed.
Lemma read_params_le n : forall t t', read_params n t = Ok t' -> (length t' <= length t)%nat.
Proof.
  induction n as [|n IH]; intros t t'; cbn [AeroDyn.read_params]; [intros E; inversion E; lia|].
  destruct (read_float t) as [[x u]|e] eqn:E; cbn [bind snd]; [|congruence].
  intros H. apply IH in H. apply read_float_le in E. lia.
Qed.

Lemma read_table_total t : exists r, (forall m, (length t < m)%nat -> read_table m t = Some r) /\
  (forall p t', r = Ok (p, t') -> (length t' <= length t)%nat).
Proof.
  unfold AeroDyn.read_table.
  destruct (read_float t) as [[x u]|e] eqn:E; cbn [bind fst snd].
  2: exists (Raise e); split; [reflexivity|congruence].
  apply read_float_le in E.
  destruct (read_params 8 u) as [v|e] eqn:E2; cbn [bind fst snd].
  2: exists (Raise e); split; [reflexivity|congruence].
  apply read_params_le in E2.
  destruct (read_rows_total (S (length v)) (mkRows [] [] [] []) v ltac:(lia)) as (r & H1 & H2).
  destruct r as [[a t']|e].
  - exists (Ok (mkPolar (x * 1000000) (r_alpha a) (r_cl a) (r_cd a) (r_cm a), t')). split.
    + intros m Hm. rewrite H1 by lia. reflexivity.
    + intros p t'' H. inversion H; subst. specialize (H2 a t'' eq_refl). lia.
  - exists (Raise e). split; [|congruence]. intros m Hm. rewrite H1 by lia. reflexivity.
Qed.

Lemma read_tables_total k : forall ps t, exists r, forall m, (length t < m)%nat -> read_tables m k ps t = Some r.
Proof.
  induction k as [|k IH]; intros ps t; cbn [AeroDyn.read_tables]; [exists (Ok ps); reflexivity|].
  destruct (read_table_total t) as ([[p t']|e] & H1 & H2).
  - destruct (IH (ps ++ [p]) t') as (r & Hr). exists r. intros m Hm. rewrite H1 by lia. apply Hr.
    specialize (H2 p t' eq_refl). lia.
  - exists (Raise e). intros m Hm. rewrite H1 by lia. reflexivity.
Qed.

Lemma init_total file : exists r, forall fuel, (length file < fuel)%nat -> init fuel file = Some r.
Proof.
  unfold initFromAerodynFile.
  pose proof (readline_le file). destruct (readline file) as [l1 t1]. cbn [snd] in *.
  pose proof (readline_le t1). destruct (readline t1) as [l2 t2]. cbn [snd] in *.
  pose proof (readline_le t2). destruct (readline t2) as [l3 t3]. cbn [snd] in *.
  pose proof (readline_le t3). destruct (readline t3) as [l4 t4]. cbn [snd] in *.
  destruct (do s <- head (split l4); int_ to_int s) as [n|e]; [|exists (Raise e); reflexivity].
  destruct (read_tables_total (Z.to_nat n) [] t4) as ([ps|e] & H').
  - exists (mk_airfoil ps). intros m Hm. rewrite H' by lia. reflexivity.
  - exists (Raise e). intros m Hm. rewrite H' by lia. reflexivity.
Qed.

Lemma terminates file : exists r, eventually (fun fuel => init fuel file) r.
Proof. destruct (init_total file) as (r & H). exists r, (S (length file)). intros fuel Hf. apply H. lia. Qed.

(** Well-formed input. *)
Lemma read_float_line t l ls x : lines_of t (l :: ls) -> starts_with_number to_float l x ->
  exists t', read_float t = Ok (x, t') /\ lines_of t' ls.
Proof.
  intros H (w & ws & Hf & Hw). destruct (readline_lines _ _ _ H) as (e & t' & E & He & Hl & _).
  exists t'. unfold AeroDyn.read_float. rewrite E, (split_line _ _ _ Hf He). cbn [head bind].
  unfold AeroDyn.float_. rewrite Hw. split; [reflexivity|exact Hl].
Qed.

Lemma read_params_lines params : forall t ls, lines_of t (params ++ ls) ->
  Forall (fun l => exists x, starts_with_number to_float l x) params ->
  exists t', read_params (length params) t = Ok t' /\ lines_of t' ls.
Proof.
  induction params as [|l params IH]; intros t ls H F; cbn [length AeroDyn.read_params].
  - exists t. split; [reflexivity|exact H].
  - inversion F as [|? ? (x & Hx) F']; subst. destruct (read_float_line t l _ x H Hx) as (t' & E & Hl).
    rewrite E. cbn [bind snd]. apply IH; assumption.
Qed.

Lemma mapM_float ws : Forall (fun w => to_float w <> None) ws -> exists xs, mapM float_ ws = Ok xs.
Proof.
  induction 1 as [|w ws Hw _ [xs E]]; [exists []; reflexivity|]. cbn [mapM]. unfold AeroDyn.float_ at 1.
  destruct (to_float w) as [x|]; [|congruence]. cbn [bind]. rewrite E. cbn [bind]. eauto.
Qed.

Definition acc_of (rs : list row) : rows :=
  mkRows (map row_alpha rs) (map row_cl rs) (map row_cd rs) (map row_cm rs).

Lemma read_rows_row f acc t l ls r : lines_of t (l :: ls) -> row_line to_float l r ->
  exists t', lines_of t' ls /\
    read_rows (S f) acc t =
    read_rows f (mkRows (r_alpha acc ++ [row_alpha r]) (r_cl acc ++ [row_cl r]) (r_cd acc ++ [row_cd r]) (r_cm acc ++ [row_cm r])) t'.
Proof.
  intros H (Hm & w1 & w2 & w3 & w4 & ws & Hf & H1 & H2 & H3 & H4 & Hw).
  destruct (readline_lines _ _ _ H) as (e & t' & E & He & Hl & _). exists t'. split; [exact Hl|].
  cbn [AeroDyn.read_rows]. rewrite E, contains_line, (contains_false l Hm), (split_line _ _ _ Hf He) by exact He.
  destruct (mapM_float ws Hw) as (xs & Ex). cbn [mapM]. unfold AeroDyn.float_ at 1 2 3 4.
  rewrite H1, H2, H3, H4. cbn [bind]. rewrite Ex. cbn [bind]. reflexivity.
Qed.

Lemma read_rows_rows rs : forall pre lrows f t ls, lines_of t (lrows ++ ls) -> Forall2 (row_line to_float) lrows rs ->
  exists t', lines_of t' ls /\ read_rows (length rs + f) (acc_of pre) t = read_rows f (acc_of (pre ++ rs)) t'.
Proof.
  induction rs as [|r rs IH]; intros pre lrows f t ls H F; inversion F as [|x ? l ? Hx F']; subst.
  - exists t. rewrite app_nil_r. split; [exact H|reflexivity].
  - cbn [length]. cbn [app] in H. destruct (read_rows_row (length rs + f) (acc_of pre) t x _ r H Hx) as (t' & Hl & E).
    destruct (IH (pre ++ [r]) l f t' ls Hl F') as (t'' & Hl' & E').
    exists t''. split; [exact Hl'|]. cbn [Nat.add]. rewrite E. rewrite <- app_assoc in E'. cbn [app] in E'. rewrite <- E'.
    unfold acc_of at 1. cbn [r_alpha r_cl r_cd r_cm].
    unfold acc_of. rewrite !map_app. reflexivity.
Qed.

Lemma F2_len {A B} (P : A -> B -> Prop) l m : Forall2 P l m -> length l = length m.
Proof. induction 1; cbn; congruence. Qed.

Lemma read_head t hd re ls : lines_of t (hd ++ ls) -> table_head to_float hd re ->
  exists t', (do xt <- read_float t; do t' <- read_params 8 (snd xt); Ok (fst xt * 1000000, t')) = Ok (re * 1000000, t') /\
    lines_of t' ls.
Proof.
  intros H (l & params & -> & Hl & Hn & F). cbn [app] in H.
  destruct (read_float_line t l _ re H Hl) as (t1 & E & H1).
  destruct (read_params_lines params t1 ls H1 F) as (t2 & E2 & H2). rewrite Hn in E2.
  exists t2. rewrite E. cbn [bind snd fst]. rewrite E2. split; [reflexivity|exact H2].
Qed.

Lemma read_table_lines m t tls tb ls : lines_of t (tls ++ ls) -> table_lines to_float tls tb -> (length t < m)%nat ->
  exists t', read_table m t = Some (Ok (polar_of tb, t')) /\ lines_of t' ls /\ (length t' <= length t)%nat.
Proof.
  intros H (hd & lrows & eot & -> & Hh & F & He) Hm. rewrite <- app_assoc in H.
  destruct (read_head t hd _ _ H Hh) as (t1 & E1 & H1). rewrite <- app_assoc in H1.
  assert (Hlen : (length t1 <= length t)%nat).
  { destruct (read_float t) as [[x u]|e] eqn:E; cbn [bind fst snd] in E1; [|congruence]. apply read_float_le in E.
    destruct (read_params 8 u) as [v|e] eqn:E2; cbn [bind] in E1; [|congruence]. apply read_params_le in E2.
    apply ok_inj in E1. apply (f_equal snd) in E1. cbn [snd] in E1. subst. lia. }
  pose proof (lines_count _ _ H1) as Hc. rewrite app_length in Hc. cbn [app length] in Hc.
  pose proof (F2_len _ _ _ F) as Hr.
  destruct (read_rows_rows (tb_rows tb) [] lrows (m - length (tb_rows tb)) t1 _ H1 F) as (t2 & H2 & E2).
  replace (length (tb_rows tb) + (m - length (tb_rows tb)))%nat with m in E2 by lia.
  cbn [app] in H2. destruct (readline_lines _ _ _ H2) as (e & t3 & E & Hee & H3 & _).
  assert (E3 : read_rows (m - length (tb_rows tb)) (acc_of ([] ++ tb_rows tb)) t2 = Some (Ok (acc_of (tb_rows tb), t3))).
  { destruct (m - length (tb_rows tb))%nat as [|k] eqn:Ek; [lia|]. cbn [AeroDyn.read_rows app]. rewrite E, contains_line by exact Hee.
    apply contains_spec in He. rewrite He. reflexivity. }
  exists t3. unfold AeroDyn.read_table. rewrite E1.
  change (mkRows [] [] [] []) with (acc_of []). rewrite E2, E3. split; [reflexivity|]. split; [exact H3|].
  destruct (read_rows_total (S (length t1)) (acc_of []) t1 ltac:(lia)) as (r & Hr1 & Hr2).
  specialize (Hr1 m ltac:(lia)). rewrite E2, E3 in Hr1. inversion Hr1; subst. specialize (Hr2 _ _ eq_refl). lia.
Qed.

Lemma read_tables_good m tlss : forall tbs k ps t ls, lines_of t (concat tlss ++ ls) -> Forall2 (table_lines to_float) tlss tbs ->
  (length t < m)%nat ->
  exists t', read_tables m (length tbs + k) ps t = read_tables m k (ps ++ map polar_of tbs) t' /\ lines_of t' ls /\
    (length t' <= length t)%nat.
Proof.
  induction tlss as [|tls tlss IH]; intros tbs k ps t ls H F Hm; inversion F as [|? tb ? tbs' Ht F']; subst.
  - exists t. cbn. rewrite app_nil_r. auto.
  - cbn [concat] in H. rewrite <- app_assoc in H. destruct (read_table_lines m t tls tb _ H Ht Hm) as (t1 & E & H1 & Hl).
    destruct (IH tbs' k (ps ++ [polar_of tb]) t1 ls H1 F' ltac:(lia)) as (t2 & E2 & H2 & Hl2).
    exists t2. cbn [length Nat.add AeroDyn.read_tables]. rewrite E, E2. rewrite <- app_assoc. split; [reflexivity|]. split; [exact H2|lia].
Qed.

Lemma read_start file h1 h2 h3 cl ls n : lines_of file (h1 :: h2 :: h3 :: cl :: ls) -> announces to_int cl n ->
  exists t, lines_of t ls /\ (length t < length file)%nat /\ forall fuel,
    init fuel file = match read_tables fuel (Z.to_nat n) [] t with
                     | None => None
                     | Some (Raise e) => Some (Raise e)
                     | Some (Ok ps) => Some (mk_airfoil ps)
                     end.
Proof.
  intros H (w & ws & Hf & Hw).
  destruct (readline_lines _ _ _ H) as (e1 & t1 & E1 & _ & L1 & N1).
  destruct (readline_lines _ _ _ L1) as (e2 & t2 & E2 & _ & L2 & N2).
  destruct (readline_lines _ _ _ L2) as (e3 & t3 & E3 & _ & L3 & N3).
  destruct (readline_lines _ _ _ L3) as (e4 & t4 & E4 & He & L4 & N4).
  exists t4. split; [exact L4|]. split; [lia|]. intros fuel. unfold initFromAerodynFile.
  rewrite E1, E2, E3, E4, (split_line _ _ _ Hf He). cbn [head bind]. unfold int_. rewrite Hw. reflexivity.
Qed.

Lemma recovers file h1 h2 h3 cl tlss tbs extra :
  lines_of file (h1 :: h2 :: h3 :: cl :: concat tlss ++ extra) ->
  announces to_int cl (Z.of_nat (length tbs)) -> Forall2 (table_lines to_float) tlss tbs -> tbs <> [] ->
  exists af, eventually (fun fuel => init fuel file) (Ok af) /\
    Permutation (map polar_of tbs) af /\ sorted_by_Re af /\ (forall r, at_Re r af = at_Re r (map polar_of tbs)).
Proof.
  intros H Ha F Hne. destruct (read_start _ _ _ _ _ _ _ H Ha) as (t & Ht & Hlt & Hi).
  destruct (proj2 (airfoil_total (map polar_of tbs))) as (af & E & Hp & Hs & Hst); [destruct tbs; [congruence|discriminate]|].
  exists af. split; [|auto].
  exists (S (length file)). intros fuel Hf. rewrite Hi, Nat2Z.id.
  destruct (read_tables_good fuel tlss tbs 0 [] t extra Ht F ltac:(lia)) as (t' & E' & _ & _).
  rewrite Nat.add_0_r in E'. rewrite E'. cbn [AeroDyn.read_tables app]. rewrite E. reflexivity.
Qed.

(** Bad input inside a table. *)
Lemma mapM_bad ws : Exists (fun w => to_float w = None) ws -> mapM float_ ws = Raise ValueError.
Proof.
  induction 1 as [w ws H|w ws _ IH]; cbn [mapM]; unfold AeroDyn.float_ at 1.
  - rewrite H. reflexivity.
  - destruct (to_float w); cbn [bind]; [rewrite IH|]; reflexivity.
Qed.
Lemma mapM_cases ws : (exists xs, mapM float_ ws = Ok xs /\ length xs = length ws) \/ mapM float_ ws = Raise ValueError.
Proof.
  induction ws as [|w ws IH]; [left; exists []; auto|]. cbn [mapM]. unfold AeroDyn.float_ at 1 3.
  destruct (to_float w); cbn [bind]; [|right; reflexivity].
  destruct IH as [(xs & -> & L)| ->]; cbn [bind]; [left; exists (r :: xs); cbn; auto|right; reflexivity].
Qed.

Lemma read_rows_bad f acc t ls : lines_of t ls ->
  ls = [] \/ (exists l rest, ls = l :: rest /\ bad_line to_float l) ->
  read_rows (S f) acc t = Some (Raise ValueError).
Proof.
  intros H [-> | (l & rest & -> & Hm & ws & Hf & Hb)].
  - apply lines_nil in H. subst. reflexivity.
  - destruct (readline_lines _ _ _ H) as (e & t' & E & He & _ & _). cbn [AeroDyn.read_rows].
    rewrite E, contains_line, (contains_false l Hm), (split_line _ _ _ Hf He) by exact He.
    destruct Hb as [Hb|Hb].
    + destruct (mapM_cases ws) as [(xs & -> & L)| ->]; [|reflexivity].
      destruct xs as [|? [|? [|? [|? ?]]]]; try reflexivity. cbn in L. lia.
    + rewrite mapM_bad by exact Hb. reflexivity.
Qed.

Lemma broken file h1 h2 h3 cl tlss tbs hd re lrows rs tail n :
  lines_of file (h1 :: h2 :: h3 :: cl :: concat tlss ++ hd ++ lrows ++ tail) ->
  announces to_int cl n -> (Z.of_nat (length tbs) < n)%Z ->
  Forall2 (table_lines to_float) tlss tbs -> table_head to_float hd re -> Forall2 (row_line to_float) lrows rs ->
  tail = [] \/ (exists l rest, tail = l :: rest /\ bad_line to_float l) ->
  eventually (fun fuel => init fuel file) (Raise ValueError).
Proof.
  intros H Ha Hn F Hh Hr Hb. destruct (read_start _ _ _ _ _ _ _ H Ha) as (t & Ht & Hlt & Hi).
  exists (S (length file)). intros fuel Hf. rewrite Hi.
  replace (Z.to_nat n) with (length tbs + S (Z.to_nat n - length tbs - 1))%nat by lia.
  destruct (read_tables_good fuel tlss tbs (S (Z.to_nat n - length tbs - 1)) [] t _ Ht F ltac:(lia)) as (t' & E' & Ht' & Hl').
  rewrite E'. cbn [AeroDyn.read_tables]. unfold AeroDyn.read_table.
  destruct (read_head t' hd re _ Ht' Hh) as (t1 & E1 & H1). rewrite E1.
  assert (Hlen : (length t1 <= length t')%nat).
  { destruct (read_float t') as [[x u]|e] eqn:E; cbn [bind fst snd] in E1; [|congruence]. apply read_float_le in E.
    destruct (read_params 8 u) as [v|e] eqn:E2; cbn [bind] in E1; [|congruence]. apply read_params_le in E2.
    apply ok_inj in E1. apply (f_equal snd) in E1. cbn [snd] in E1. subst. lia. }
  pose proof (lines_count _ _ H1) as Hc. rewrite app_length in Hc. pose proof (F2_len _ _ _ Hr) as HL.
  destruct (read_rows_rows rs [] lrows (S (fuel - length rs - 1)) t1 _ H1 Hr) as (t2 & H2 & E2).
  replace (length rs + S (fuel - length rs - 1))%nat with fuel in E2 by lia.
  change (mkRows [] [] [] []) with (acc_of []). rewrite E2, read_rows_bad with (ls := tail) by assumption. reflexivity.
Qed.

Lemma read_float_nil : read_float [] = Raise IndexError. Proof. reflexivity. Qed.

(** Fewer tables than announced. *)
Lemma missing_table file h1 h2 h3 cl tlss tbs n :
  lines_of file (h1 :: h2 :: h3 :: cl :: concat tlss) ->
  announces to_int cl n -> (Z.of_nat (length tbs) < n)%Z -> Forall2 (table_lines to_float) tlss tbs ->
  eventually (fun fuel => init fuel file) (Raise IndexError).
Proof.
  intros H Ha Hn F. destruct (read_start _ _ _ _ _ _ _ H Ha) as (t & Ht & Hlt & Hi).
  exists (S (length file)). intros fuel Hf. rewrite Hi.
  replace (Z.to_nat n) with (length tbs + S (Z.to_nat n - length tbs - 1))%nat by lia.
  rewrite <- (app_nil_r (concat tlss)) in Ht.
  destruct (read_tables_good fuel tlss tbs (S (Z.to_nat n - length tbs - 1)) [] t _ Ht F ltac:(lia)) as (t' & E' & Ht' & Hl').
  apply lines_nil in Ht'. subst. rewrite E'. reflexivity.
Qed.

(** No tables announced. *)
Lemma no_tables file h1 h2 h3 cl ls n : lines_of file (h1 :: h2 :: h3 :: cl :: ls) -> announces to_int cl n -> (n <= 0)%Z ->
  eventually (fun fuel => init fuel file) (Raise IndexError).
Proof.
  intros H Ha Hn. destruct (read_start _ _ _ _ _ _ _ H Ha) as (t & Ht & Hlt & Hi).
  exists 0%nat. intros fuel _. rewrite Hi. replace (Z.to_nat n) with 0%nat by lia. reflexivity.
Qed.

(** The fourth line gives no number of tables. *)
Lemma bad_count file h1 h2 h3 cl ls ws : lines_of file (h1 :: h2 :: h3 :: cl :: ls) -> fields cl ws ->
  (ws = [] -> eventually (fun fuel => init fuel file) (Raise IndexError)) /\
  (forall w ws', ws = w :: ws' -> to_int w = None -> eventually (fun fuel => init fuel file) (Raise ValueError)).
Proof.
  intros H Hf.
  destruct (readline_lines _ _ _ H) as (e1 & t1 & E1 & _ & L1 & N1).
  destruct (readline_lines _ _ _ L1) as (e2 & t2 & E2 & _ & L2 & N2).
  destruct (readline_lines _ _ _ L2) as (e3 & t3 & E3 & _ & L3 & N3).
  destruct (readline_lines _ _ _ L3) as (e4 & t4 & E4 & He & L4 & N4).
  split.
  - intros ->. exists 0%nat. intros fuel _. unfold initFromAerodynFile.
    rewrite E1, E2, E3, E4, (split_line _ _ _ Hf He). reflexivity.
  - intros w ws' -> Hw. exists 0%nat. intros fuel _. unfold initFromAerodynFile.
    rewrite E1, E2, E3, E4, (split_line _ _ _ Hf He). cbn [head bind]. unfold int_. rewrite Hw. reflexivity.
Qed.

(** A text without newlines. *)
Lemma one_line file fuel : ~ In newline file -> init fuel file = Some (Raise IndexError).
Proof. intros H. unfold initFromAerodynFile. rewrite readline_last by exact H. reflexivity. Qed.
End Reader.

(** ** Writing *)
Section Writer.
Variable fmt_f : R -> text.
Variable fmt_d : nat -> text.
Variable pad40 : text -> text.
Variable unsteady : polar -> res (list R).
Hypothesis Hf : forall x, ~ In newline (fmt_f x).
Hypothesis Hd : forall n, ~ In newline (fmt_d n).
Hypothesis Hp : forall s, ~ In newline s -> ~ In newline (pad40 s).

Lemma app_no (a b : text) : ~ In newline a -> ~ In newline b -> ~ In newline (a ++ b).
Proof. rewrite in_app_iff. tauto. Qed.
Lemma concat_no (l : list text) : Forall (fun a => ~ In newline a) l -> ~ In newline (concat l).
Proof. induction 1; cbn [concat]; [intros []|apply app_no; assumption]. Qed.

Ltac lits := cbn; intuition discriminate.
Lemma tab_no : ~ In newline tab. Proof. lits. Qed.
Lemma labels_no k : ~ In newline (nth k param_labels []).
Proof. do 8 (destruct k as [|k]; [lits|]). destruct k; intros []. Qed.

Lemma write_table_no p t : write_table fmt_f pad40 unsteady p = Ok t -> ~ In newline t.
Proof.
  unfold write_table. destruct (unsteady p) as [param|e]; cbn [bind]; [|congruence]. intros E. apply ok_inj in E. subst t.
  unfold entry. repeat apply app_no; auto using tab_no; try (apply Hp; lits); try lits.
  all: apply concat_no, Forall_forall; intros x Hx; apply in_map_iff in Hx; destruct Hx as (k & <- & _);
    repeat apply app_no; auto using tab_no, labels_no.
Qed.

Lemma mapM_all {A B} (f : A -> res B) (P : B -> Prop) l : forall ys,
  (forall x y, f x = Ok y -> P y) -> mapM f l = Ok ys -> Forall P ys.
Proof.
  induction l as [|x l IH]; intros ys H E; cbn [mapM] in E; [apply ok_inj in E; subst; constructor|].
  destruct (f x) as [y|e] eqn:Ex; cbn [bind] in E; [|congruence].
  destruct (mapM f l) as [zs|e]; cbn [bind] in E; [|congruence]. apply ok_inj in E. subst. constructor; eauto.
Qed.

Lemma write_no af file : writeToAerodynFile fmt_f fmt_d pad40 unsteady af = Ok file -> ~ In newline file.
Proof.
  unfold writeToAerodynFile. destruct (interpToCommonAlpha af None) as [common|e]; cbn [bind]; [|congruence].
  destruct (mapM _ common) as [tables|e] eqn:E; cbn [bind]; [|congruence]. intros H. apply ok_inj in H. subst file.
  repeat apply app_no; auto using tab_no; try (apply Hp; lits); try lits.
  apply concat_no. exact (mapM_all _ _ _ _ write_table_no E).
Qed.

Lemma write_ok af common : interpToCommonAlpha af None = Ok common ->
  (forall p, In p common -> exists l, unsteady p = Ok l) ->
  exists file, writeToAerodynFile fmt_f fmt_d pad40 unsteady af = Ok file.
Proof.
  intros E Hu. unfold writeToAerodynFile. rewrite E. cbn [bind].
  destruct (mapM_ok (write_table fmt_f pad40 unsteady) (fun _ _ => True) common) as (ys & E' & _).
  - intros p Hp'. unfold write_table. destruct (Hu p Hp') as (l & ->). cbn [bind]. eauto.
  - rewrite E'. cbn [bind]. eauto.
Qed.
End Writer.

Lemma fields_split l : fields l (split l).
Proof. destruct (fields_total l) as (ws & H). rewrite (split_fields _ _ H). exact H. Qed.
