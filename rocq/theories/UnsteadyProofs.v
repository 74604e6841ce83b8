(** Proofs about Polar.unsteadyparam. *)
From Coq Require Import Reals List Bool ZArith Lra Lia Sorted.
From Verif Require Import Prelim Interp Polar PolarExt AeroDyn AeroDynSpec InterpSpec InterpProofs PolarSpec PolarProofs AeroDynProofs.
Import ListNotations.
Open Scope R_scope.

Lemma as_map (l : list R) : l = map (fun i => nth i l 0) (seq 0 (length l)).
Proof.
  apply (nth_ext _ _ 0 0); [rewrite map_length, seq_length; reflexivity|].
  intros i Hi. symmetry. rewrite (nth_indep (map _ _) 0 (nth 0 l 0)) by (rewrite map_length, seq_length; exact Hi).
  rewrite (map_nth (fun i => nth i l 0)). rewrite seq_nth by exact Hi. reflexivity.
Qed.
Lemma combine_map {A B C} (f : A -> B) (g : A -> C) l : combine (map f l) (map g l) = map (fun i => (f i, g i)) l.
Proof. induction l; cbn; congruence. Qed.
Lemma filter_map {A B} (f : A -> B) P l : filter P (map f l) = map f (filter (fun i => P (f i)) l).
Proof. induction l as [|x l IH]; [reflexivity|]. cbn [map filter]. rewrite IH. destruct (P (f x)); reflexivity. Qed.

Lemma rleb_radians x y : rleb (radians x) (radians y) = rleb x y.
Proof.
  pose proof PI_RGT_0. destruct (Rle_lt_dec x y) as [H0|H0].
  - replace (rleb x y) with true by (symmetry; apply rleb_true; exact H0). apply rleb_true. unfold radians. nra.
  - replace (rleb x y) with false by (symmetry; apply rleb_false; exact H0). apply rleb_false. unfold radians. nra.
Qed.

Lemma cn_map p : length (p_cl p) = length (p_alpha p) -> length (p_cd p) = length (p_alpha p) ->
  map2 (fun a c => fst c * cos a + snd c * sin a) (map radians (p_alpha p)) (combine (p_cl p) (p_cd p)) =
  map (fun i => let a := radians (nth i (p_alpha p) 0) in nth i (p_cl p) 0 * cos a + nth i (p_cd p) 0 * sin a)
    (seq 0 (length (p_alpha p))).
Proof.
  intros L1 L2. unfold map2. rewrite (as_map (p_cl p)), (as_map (p_cd p)), (as_map (p_alpha p)) at 1.
  rewrite L1, L2, combine_map, map_map, combine_map, map_map. apply map_ext. intros i. reflexivity.
Qed.

Lemma rows_eq p lo hi : length (p_cl p) = length (p_alpha p) -> length (p_cd p) = length (p_alpha p) ->
  filter (fun x => rleb (radians lo) (fst x) && rleb (fst x) (radians hi))
    (combine (map radians (p_alpha p))
       (map2 (fun a c => fst c * cos a + snd c * sin a) (map radians (p_alpha p)) (combine (p_cl p) (p_cd p)))) =
  normal_rows p lo hi.
Proof.
  intros L1 L2. rewrite cn_map by assumption. rewrite (as_map (p_alpha p)) at 1. rewrite map_map, combine_map, filter_map.
  unfold normal_rows. f_equal. apply filter_ext. intros i. cbn [fst]. rewrite !rleb_radians. reflexivity.
Qed.

Lemma incr_nodup l : increasing l -> NoDup l.
Proof.
  intros H. apply incr_ss in H. induction H as [|x l H IH F]; constructor; [|exact IH].
  intros I. rewrite Forall_forall in F. specialize (F x I). lra.
Qed.
Lemma unique_many l : ten_values l -> (10 <= length (unique l))%nat.
Proof.
  intros (s & N & L & I). rewrite <- L. apply NoDup_incl_length; [exact N|]. intros x Hx. apply unique_in, I, Hx.
Qed.
Lemma unique_few l : few_values l -> (length (unique l) < 10)%nat.
Proof.
  intros (s & L & I). assert ((length (unique l) <= length s)%nat); [|lia].
  apply NoDup_incl_length; [apply incr_nodup, unique_incr|]. intros x Hx. apply I, unique_in, Hx.
Qed.

Lemma argmin_from_spec l : forall pre best v, (best < length pre)%nat -> nth best pre 0 = v -> Forall (fun x => v <= x) pre ->
  let i := argmin_from l (length pre) best v in
  (i < length (pre ++ l))%nat /\ Forall (fun x => nth i (pre ++ l) 0 <= x) (pre ++ l).
Proof.
  induction l as [|x l IH]; intros pre best v Hb Hv F; cbn [argmin_from].
  - rewrite app_nil_r. rewrite Hv. auto.
  - replace (pre ++ x :: l) with ((pre ++ [x]) ++ l) by (rewrite <- app_assoc; reflexivity).
    replace (S (length pre)) with (length (pre ++ [x])) by (rewrite app_length; cbn; lia).
    destruct (rltb x v) eqn:E.
    + apply rltb_true in E. apply IH.
      * rewrite app_length. cbn. lia.
      * rewrite app_nth2, Nat.sub_diag by lia. reflexivity.
      * apply Forall_app. split; [|constructor; [lra|constructor]]. eapply Forall_impl; [|exact F]. cbn. intros. lra.
    + apply rltb_false in E. apply IH.
      * rewrite app_length. cbn. lia.
      * rewrite app_nth1 by exact Hb. exact Hv.
      * apply Forall_app. split; [exact F|constructor; [lra|constructor]].
Qed.
Lemma argmin_spec l : l <> [] -> exists i, argmin l = Ok i /\ (i < length l)%nat /\ Forall (fun x => nth i l 0 <= x) l.
Proof.
  destruct l as [|x l]; [congruence|]. intros _. cbn [argmin]. exists (argmin_from l 1 0 x). split; [reflexivity|].
  apply (argmin_from_spec l [x] 0 x); [cbn; lia|reflexivity|constructor; [lra|constructor]].
Qed.

Section Unsteady.
Variable polyfit : list R -> list R -> res (R * R).
Variable raw_interp : R -> list R -> list R -> R.
Notation unsteadyparam := (unsteadyparam polyfit raw_interp).

Lemma unsteady_zero p lo hi : (length (p_alpha p) < 10)%nat \/ few_values (p_cl p) ->
  unsteadyparam p lo hi = Ok [0; 0; 0; 0; 0; 0; 0; 0].
Proof.
  intros H. unfold AeroDyn.unsteadyparam.
  assert (E : Nat.ltb (length (map radians (p_alpha p))) 10 || Nat.ltb (length (unique (p_cl p))) 10 = true).
  { apply orb_true_iff. rewrite map_length, !Nat.ltb_lt. destruct H as [H|H]; [left; exact H|right; apply unique_few, H]. }
  rewrite E. reflexivity.
Qed.

Lemma guard_false p : (10 <= length (p_alpha p))%nat -> ten_values (p_cl p) ->
  Nat.ltb (length (map radians (p_alpha p))) 10 || Nat.ltb (length (unique (p_cl p))) 10 = false.
Proof.
  intros H1 H2. apply unique_many in H2. rewrite map_length. apply orb_false_iff. rewrite !Nat.ltb_ge. lia.
Qed.

Lemma unsteady_fails p lo hi e : wf_polar p -> (10 <= length (p_alpha p))%nat -> ten_values (p_cl p) ->
  Forall (fun a => a < lo \/ hi < a) (p_alpha p) -> polyfit [] [] = Raise e ->
  unsteadyparam p lo hi = Raise e.
Proof.
  intros (Hne & _ & L1 & L2 & _) H1 H2 Hout He. unfold AeroDyn.unsteadyparam. rewrite guard_false by assumption. cbv zeta.
  rewrite rows_eq by assumption.
  replace (normal_rows p lo hi) with (@nil (R * R)); [cbn [map]; rewrite He; reflexivity|].
  unfold normal_rows. symmetry.
  assert (E : filter (fun i => rleb lo (nth i (p_alpha p) 0) && rleb (nth i (p_alpha p) 0) hi) (seq 0 (length (p_alpha p))) = []).
  { assert (G : forall l, (forall i, In i l -> (i < length (p_alpha p))%nat) ->
      filter (fun i => rleb lo (nth i (p_alpha p) 0) && rleb (nth i (p_alpha p) 0) hi) l = []).
    { induction l as [|i l IH]; intros Hl; [reflexivity|]. cbn [filter].
      rewrite Forall_forall in Hout. specialize (Hout _ (nth_In (p_alpha p) 0 (Hl i (or_introl eq_refl)))).
      replace (rleb lo (nth i (p_alpha p) 0) && rleb (nth i (p_alpha p) 0) hi) with false; [apply IH; intros; apply Hl; right; assumption|].
      symmetry. apply andb_false_iff. destruct Hout; [left|right]; apply rleb_false; lra. }
    apply G. intros i Hi. apply in_seq in Hi. lia. }
  rewrite E. reflexivity.
Qed.

Lemma unsteady_spec p lo hi m c : wf_polar p -> (10 <= length (p_alpha p))%nat -> ten_values (p_cl p) ->
  polyfit (map fst (normal_rows p lo hi)) (map snd (normal_rows p lo hi)) = Ok (m, c) -> m <> 0 ->
  exists stall zero cnu cnl i,
    unsteadyparam p lo hi = Ok [0; stall; zero; m; cnu; cnl; radians (nth i (p_alpha p) 0); nth i (p_cd p) 0] /\
    m * radians zero + c = 0 /\ cnu = m * radians (stall - zero) /\
    (i < length (p_alpha p))%nat /\ Forall (fun d => nth i (p_cd p) 0 <= d) (p_cd p).
Proof.
  intros (Hne & _ & L1 & L2 & _) H1 H2 Hp Hm. unfold AeroDyn.unsteadyparam. rewrite guard_false by assumption. cbv zeta.
  rewrite rows_eq, Hp by assumption. cbn [bind fst snd].
  rewrite cn_map by assumption. unfold np_interp. rewrite !map_length, seq_length, Nat.eqb_refl. cbn [negb].
  destruct (map radians (p_alpha p)) as [|r0 rs] eqn:Er; [destruct (p_alpha p); [congruence|discriminate]|]. rewrite <- Er in *.
  cbn [bind].
  destruct (argmin_spec (p_cd p)) as (i & Ei & Hi & F); [intros E; rewrite E in L2; destruct (p_alpha p); [congruence|discriminate]|].
  rewrite Ei. cbn [bind].
  match goal with |- exists _ _ _ _ _, Ok [0; degrees ?a; degrees ?z; m; ?u; ?l; _; _] = _ /\ _ =>
    exists (degrees a), (degrees z), u, l, i; set (aU := a); clearbody aU end.
  rewrite L2 in Hi. split; [|split; [|split; [|split; [exact Hi|exact F]]]].
  - f_equal. repeat f_equal. rewrite (nth_indep _ 0 (radians 0)) by (rewrite map_length; exact Hi). apply map_nth.
  - rewrite radians_degrees. field. exact Hm.
  - f_equal. unfold radians, degrees. field. split; [apply PI_neq0|exact Hm].
Qed.

Lemma radians_increasing l : increasing l -> increasing (map radians l).
Proof.
  intros H i j Hij. rewrite map_length in Hij. rewrite !(nth_indep (map radians l) 0 (radians 0)) by (rewrite map_length; lia).
  rewrite !map_nth. specialize (H i j ltac:(lia)). pose proof PI_RGT_0. unfold radians. nra.
Qed.

(** The deviation lists of the model. *)
Lemma deviation_list p (f : R -> R -> R) line sign grid : wf_polar p -> (forall a cn, f a cn = sign * (line a - cn)) ->
  deviations p line sign (length grid) grid
    (map2 f grid (map (fun x => interp x (map radians (p_alpha p)) (normal_column p)) grid)).
Proof.
  intros (Hne & HI & L1 & L2 & _) Hf. unfold map2.
  split; [reflexivity|]. split; [rewrite map_length, combine_length, map_length; lia|]. intros k Hk.
  eexists. split.
  - apply interp_polygon.
    + apply radians_increasing, HI.
    + unfold normal_column. rewrite !map_length, seq_length. reflexivity.
    + intros E. apply map_eq_nil in E. contradiction.
  - rewrite <- Hf. set (g := fun x => interp x (map radians (p_alpha p)) (normal_column p)).
    change (nth k (map (fun x => f (fst x) (snd x)) (combine grid (map g grid))) 0 = f (nth k grid 0) (g (nth k grid 0))).
    revert k Hk. induction grid as [|x l IH]; intros [|k] Hk; cbn in *; try lia; [reflexivity|]. apply IH. lia.
Qed.

Lemma stall_spec p lo hi m c : wf_polar p -> (10 <= length (p_alpha p))%nat -> ten_values (p_cl p) ->
  polyfit (map fst (normal_rows p lo hi)) (map snd (normal_rows p lo hi)) = Ok (m, c) -> m <> 0 ->
  exists l gU dU gL dL, unsteadyparam p lo hi = Ok l /\
    deviations p (fun a => m * a + c) 1 40 gU dU /\ deviations p (fun a => m * a + c) (-1) 45 gL dL /\
    (forall k, (k < 40)%nat -> nth k gU 0 = radians (INR k)) /\ (forall k, (k < 45)%nat -> nth k gL 0 = radians (5 - INR k)) /\
    radians (nth 1 l 0) = raw_interp (1 / 20) dU gU /\
    nth 4 l 0 = m * raw_interp (1 / 20) dU gU + c /\ nth 5 l 0 = m * raw_interp (1 / 20) dL gL + c.
Proof.
  intros HW H1 H2 Hp Hm. pose proof HW as (Hne & _ & L1 & L2 & _). unfold AeroDyn.unsteadyparam. rewrite guard_false by assumption. cbv zeta.
  rewrite rows_eq, Hp by assumption. cbn [bind fst snd].
  rewrite cn_map by assumption. fold (normal_column p). unfold np_interp.
  replace (length (map radians (p_alpha p))) with (length (normal_column p)) by (unfold normal_column; rewrite !map_length, seq_length; reflexivity).
  rewrite Nat.eqb_refl. cbn [negb].
  destruct (map radians (p_alpha p)) as [|r0 rs] eqn:Er; [destruct (p_alpha p); [congruence|discriminate]|]. rewrite <- Er in *. clear Er r0 rs.
  cbn [bind].
  destruct (argmin_spec (p_cd p)) as (i & Ei & Hi & F); [intros E; rewrite E in L2; destruct (p_alpha p); [congruence|discriminate]|].
  rewrite Ei. cbn [bind]. replace (5 / 100) with (1 / 20) by field.
  do 5 eexists. split; [reflexivity|]. cbn [nth].
  split; [|split; [|split; [|split]]].
  - apply (deviation_list p (fun a x => m * (a - - c / m) - x) (fun a => m * a + c) 1 (map radians arange_up) HW). intros a cn. field. exact Hm.
  - apply (deviation_list p (fun a x => x - m * (a - - c / m)) (fun a => m * a + c) (-1) (map radians arange_down) HW). intros a cn. field. exact Hm.
  - intros k Hk. rewrite (nth_indep _ 0 (radians (INR 0))) by (unfold arange_up; rewrite !map_length, seq_length; exact Hk).
    unfold arange_up. rewrite !map_nth, seq_nth by exact Hk. reflexivity.
  - intros k Hk. rewrite (nth_indep _ 0 (radians (5 - INR 0))) by (unfold arange_down; rewrite !map_length, seq_length; exact Hk).
    unfold arange_down. rewrite map_nth, (map_nth (fun k => 5 - INR k)), seq_nth by exact Hk. reflexivity.
  - split; [apply radians_degrees|].
    split; match goal with |- m * (?x - _) = m * ?y + c => change y with x end; field; exact Hm.
Qed.

Lemma wrong_unit p lo hi m c : wf_polar p -> (10 <= length (p_alpha p))%nat -> ten_values (p_cl p) ->
  polyfit (map fst (normal_rows p lo hi)) (map snd (normal_rows p lo hi)) = Ok (m, c) -> m <> 0 ->
  exists l i, unsteadyparam p lo hi = Ok l /\
    (i < length (p_alpha p))%nat /\ Forall (fun d => nth i (p_cd p) 0 <= d) (p_cd p) /\
    nth 6 l 0 = radians (nth i (p_alpha p) 0) /\ nth 7 l 0 = nth i (p_cd p) 0 /\
    (nth i (p_alpha p) 0 <> 0 -> nth 6 l 0 <> nth i (p_alpha p) 0).
Proof.
  intros H H1 H2 H3 H4. destruct (unsteady_spec p lo hi m c H H1 H2 H3 H4) as (s & z & u & l & i & E & _ & _ & Hi & F).
  eexists _, i. split; [exact E|]. split; [exact Hi|]. split; [exact F|]. cbn [nth]. split; [reflexivity|]. split; [reflexivity|].
  intros Hn E'. apply Hn. unfold radians in E'. pose proof PI_4. pose proof PI_RGT_0. nra.
Qed.

Lemma normal_rows_nonempty p lo hi : (exists a, In a (p_alpha p) /\ lo <= a <= hi) -> normal_rows p lo hi <> [].
Proof.
  intros (a & Ha & Hr) E. apply (In_nth _ _ 0) in Ha. destruct Ha as (i & Hi & Ea). unfold normal_rows in E.
  apply map_eq_nil in E.
  assert (I : In i (filter (fun i => rleb lo (nth i (p_alpha p) 0) && rleb (nth i (p_alpha p) 0) hi) (seq 0 (length (p_alpha p))))).
  { apply filter_In. split; [apply in_seq; lia|]. rewrite Ea. apply andb_true_iff. split; apply rleb_true; lra. }
  rewrite E in I. destruct I.
Qed.

Lemma unsteady_ok p lo hi : wf_polar p -> (exists a, In a (p_alpha p) /\ lo <= a <= hi) ->
  (forall x y, x <> [] -> length x = length y -> exists mc, polyfit x y = Ok mc) ->
  exists l, unsteadyparam p lo hi = Ok l.
Proof.
  intros (Hne & _ & L1 & L2 & _) Ha Hp. unfold AeroDyn.unsteadyparam.
  destruct (Nat.ltb (length (map radians (p_alpha p))) 10 || Nat.ltb (length (unique (p_cl p))) 10); [eauto|]. cbv zeta.
  rewrite rows_eq by assumption. pose proof (normal_rows_nonempty p lo hi Ha) as Hn.
  destruct (Hp (map fst (normal_rows p lo hi)) (map snd (normal_rows p lo hi))) as ([m c] & ->);
    [intros E; apply map_eq_nil in E; congruence|rewrite !map_length; reflexivity|].
  cbn [bind fst snd]. rewrite cn_map by assumption. unfold np_interp. rewrite !map_length, seq_length, Nat.eqb_refl. cbn [negb].
  destruct (map radians (p_alpha p)) as [|r0 rs] eqn:Er; [destruct (p_alpha p); [congruence|discriminate]|]. rewrite <- Er in *.
  cbn [bind].
  destruct (argmin_spec (p_cd p)) as (i & Ei & _); [intros E; rewrite E in L2; destruct (p_alpha p); [congruence|discriminate]|].
  rewrite Ei. cbn [bind]. eauto.
Qed.
End Unsteady.

Lemma unreadable fmt_f fmt_d pad40 polyfit raw_interp to_float to_int af :
  (forall x, ~ In newline (fmt_f x)) -> (forall n, ~ In newline (fmt_d n)) ->
  (forall s, ~ In newline s -> ~ In newline (pad40 s)) ->
  (forall x y, x <> [] -> length x = length y -> exists mc, polyfit x y = Ok mc) ->
  af <> [] -> sorted_by_Re af -> Forall wf_polar af ->
  (exists p a, In p af /\ In a (p_alpha p) /\ -5 <= a <= 5) ->
  exists file,
    writeToAerodynFile fmt_f fmt_d pad40 (fun p => unsteadyparam polyfit raw_interp p (-5) 5) af = Ok file /\
    eventually (fun fuel => initFromAerodynFile to_float to_int fuel file) (Raise IndexError).
Proof.
  intros Hf Hd Hp Hpf Hne Hs Hw (p0 & a & Hp0 & Ha & Hr).
  destruct (common_unified af Hne Hs Hw) as (af' & grid & E & Hi & Hg & F & _).
  assert (Hag : In a grid) by (apply Hg; eauto).
  destruct (write_ok fmt_f fmt_d pad40 (fun p => unsteadyparam polyfit raw_interp p (-5) 5) af af' E) as (file & Ef).
  - intros q Hq. assert (G : p_alpha q = grid /\ forall k, length (col k q) = length grid).
    { clear - F Hq. induction F as [|x y l m (_ & H1 & H2) F IH]; [destruct Hq|].
      destruct Hq as [<-|Hq]; [split; [exact H1|intros k; apply H2]|apply IH, Hq]. }
    destruct G as [G1 G2]. apply unsteady_ok; [|exists a; rewrite G1; auto|exact Hpf].
    unfold wf_polar. rewrite G1. split; [intros Z; rewrite Z in Hag; destruct Hag|]. split; [exact Hi|].
    exact (conj (G2 CL) (conj (G2 CD) (G2 CM))).
  - exists file. split; [exact Ef|].
    exists 0%nat. intros fuel _. apply one_line. exact (write_no fmt_f fmt_d pad40 _ Hf Hd Hp _ _ Ef).
Qed.
