(** Lemmas about airfoil tables. *)
From Coq Require Import Reals List Bool Lra Lia Permutation Sorted.
From Verif Require Import Prelim Interp Polar InterpSpec InterpProofs PolarSpec.
Import ListNotations.
Open Scope R_scope.

(** * Sorted lists *)
Lemma incr_ss l : increasing l <-> StronglySorted Rlt l.
Proof.
  induction l as [|x l IH].
  - split; [constructor|]. intros _ i j Hij. simpl in Hij. lia.
  - split.
    + intros H. constructor; [apply IH; eapply increasing_tail; eauto|].
      apply Forall_forall. intros y Hy. apply (In_nth _ _ 0) in Hy. destruct Hy as (i & Hi & <-).
      apply increasing_head with (1 := H). exact Hi.
    + intros H. inversion H as [|? ? H1 H2]; subst. apply increasing_cons; [apply IH; assumption|].
      destruct l as [|y l]; [left; reflexivity|right]. inversion H2; assumption.
Qed.

Lemma ss_unique (l : list R) : forall m, StronglySorted Rlt l -> StronglySorted Rlt m ->
  (forall x, In x l <-> In x m) -> l = m.
Proof.
  induction l as [|x l IH]; intros m Hl Hm H.
  - destruct m as [|y m]; [reflexivity|]. exfalso. apply (H y). left; reflexivity.
  - destruct m as [|y m]; [exfalso; apply (H x); left; reflexivity|].
    inversion Hl as [|? ? A1 A2]; subst. inversion Hm as [|? ? B1 B2]; subst.
    rewrite Forall_forall in A2, B2.
    assert (x = y).
    { destruct (proj1 (H x) (or_introl eq_refl)) as [E|E]; [auto|].
      destruct (proj2 (H y) (or_introl eq_refl)) as [F|F]; [auto|].
      specialize (A2 _ F). specialize (B2 _ E). lra. }
    subst y. f_equal. apply IH; auto. intros z. split; intros Hz.
    + destruct (proj1 (H z) (or_intror Hz)) as [E|E]; [|exact E]. subst z. specialize (A2 _ Hz). lra.
    + destruct (proj2 (H z) (or_intror Hz)) as [E|E]; [|exact E]. subst z. specialize (B2 _ Hz). lra.
Qed.

Lemma incr_unique l m : increasing l -> increasing m -> (forall x, In x l <-> In x m) -> l = m.
Proof. rewrite !incr_ss. apply ss_unique. Qed.

Lemma uinsert_in x l z : In z (uinsert x l) <-> z = x \/ In z l.
Proof.
  induction l as [|y l IH]; cbn [uinsert]; [simpl; intuition congruence|].
  destruct (rltb x y); [simpl; intuition congruence|].
  destruct (reqb x y) eqn:E; rb_hyps; [subst; simpl; intuition congruence|].
  simpl. rewrite IH. intuition congruence.
Qed.

Lemma uinsert_ss x l : StronglySorted Rlt l -> StronglySorted Rlt (uinsert x l).
Proof.
  induction l as [|y l IH]; intros H; cbn [uinsert]; [repeat constructor|].
  inversion H as [|? ? H1 H2]; subst.
  destruct (rltb x y) eqn:E; rb_hyps.
  - constructor; [exact H|]. constructor; [exact E|]. eapply Forall_impl; [|exact H2]. intros; simpl in *; lra.
  - destruct (reqb x y) eqn:E2; rb_hyps; [exact H|]. constructor; [auto|].
    apply Forall_forall. intros z Hz. apply uinsert_in in Hz. destruct Hz as [->|Hz]; [lra|].
    rewrite Forall_forall in H2. auto.
Qed.

Lemma unique_in l z : In z (unique l) <-> In z l.
Proof.
  induction l as [|x l IH]; [reflexivity|]. cbn [unique fold_right]. rewrite uinsert_in.
  fold (unique l). rewrite IH. simpl. intuition congruence.
Qed.

Lemma unique_incr l : increasing (unique l).
Proof. apply incr_ss. induction l; [constructor|]. apply uinsert_ss. assumption. Qed.

Lemma union1d_in a b z : In z (union1d a b) <-> In z a \/ In z b.
Proof. unfold union1d. rewrite unique_in, in_app_iff. reflexivity. Qed.

Lemma union1d_incr a b : increasing (union1d a b).
Proof. apply unique_incr. Qed.

Lemma filter_ss f l : StronglySorted Rlt l -> StronglySorted Rlt (filter f l).
Proof.
  induction 1 as [|x l H IH F]; [constructor|]. simpl. destruct (f x); [|exact IH].
  constructor; [exact IH|]. apply Forall_forall. intros z Hz. apply filter_In in Hz.
  rewrite Forall_forall in F. apply F. tauto.
Qed.

Lemma filter_incr f l : increasing l -> increasing (filter f l).
Proof. rewrite !incr_ss. apply filter_ss. Qed.

Lemma union1d_self l : increasing l -> union1d l l = l.
Proof. intros H. apply incr_unique; [apply union1d_incr|exact H|]. intros x. rewrite union1d_in. tauto. Qed.

Lemma in_first_final l x : increasing l -> In x l -> first l <= x <= final l.
Proof.
  intros H Hx. apply (In_nth _ _ 0) in Hx. destruct Hx as (i & Hi & <-). unfold first, final.
  split; apply increasing_le; auto; lia.
Qed.

Lemma first_in l : l <> [] -> In (first l) l.
Proof. intros H. apply nth_In. destruct l; [congruence|simpl; lia]. Qed.
Lemma final_in l : l <> [] -> In (final l) l.
Proof. intros H. apply nth_In. destruct l; [congruence|simpl; lia]. Qed.

Lemma fold_min l : forall x, (forall y, In y l -> x < y) -> fold_left Rmin l x = x.
Proof.
  induction l as [|y l IH]; intros x H; [reflexivity|]. simpl.
  rewrite Rmin_left; [|left; apply H; left; reflexivity]. apply IH. intros; apply H; right; assumption.
Qed.

Lemma amin_first l : increasing l -> l <> [] -> amin l = Ok (first l).
Proof.
  intros H Hne. destruct l as [|x l]; [congruence|]. cbn [amin]. unfold first. cbn [nth]. f_equal.
  apply fold_min. apply incr_ss in H. inversion H as [|? ? _ F]; subst. rewrite Forall_forall in F. exact F.
Qed.

Lemma amax_final l : increasing l -> l <> [] -> amax l = Ok (final l).
Proof.
  intros H Hne. destruct l as [|x l]; [congruence|]. cbn [amax]. f_equal. clear Hne. revert x H.
  induction l as [|y l IH]; intros x H; [reflexivity|]. cbn [fold_left].
  rewrite Rmax_right; [|left; apply (H 0%nat 1%nat); simpl; lia].
  rewrite (IH y (increasing_tail _ _ H)). unfold final. simpl. rewrite Nat.sub_0_r. reflexivity.
Qed.

(** * Interpolated columns *)
Lemma wf_col k p : wf_polar p -> length (p_alpha p) = length (col k p).
Proof. intros (_ & _ & H1 & H2 & H3). destruct k; simpl; congruence. Qed.

Lemma np_interp_ok xs xp fp : xp <> [] -> length xp = length fp ->
  np_interp xs xp fp = Ok (map (fun x => interp x xp fp) xs).
Proof.
  intros Hne HL. unfold np_interp. rewrite HL, Nat.eqb_refl. cbn [negb]. destruct xp; [congruence|reflexivity].
Qed.

Definition ival (k : column) (p : polar) (a : R) : R := interp a (p_alpha p) (col k p).

Lemma value_ival k p a : wf_polar p -> value k p a (ival k p a).
Proof. intros H. apply interp_polygon; [apply H|apply wf_col; exact H|apply H]. Qed.

Lemma value_unique k p a y : wf_polar p -> value k p a y -> y = ival k p a.
Proof.
  intros H Hy. apply (polygon_unique (p_alpha p) (col k p) a); [apply H|apply H|exact Hy|].
  apply value_ival. exact H.
Qed.

Lemma ival_node k p i : wf_polar p -> (i < length (p_alpha p))%nat ->
  ival k p (nth i (p_alpha p) 0) = nth i (col k p) 0.
Proof. intros H Hi. apply interp_node; [apply H|apply wf_col; exact H|exact Hi]. Qed.

Lemma ival_nodes k p : wf_polar p -> map (ival k p) (p_alpha p) = col k p.
Proof.
  intros H. apply (nth_ext _ _ 0 0); [rewrite map_length; apply wf_col; exact H|].
  intros i Hi. rewrite map_length in Hi.
  rewrite (nth_indep _ 0 (ival k p 0)) by (rewrite map_length; exact Hi).
  rewrite map_nth. apply ival_node; assumption.
Qed.

Lemma map2_map {A} (f : R -> R -> R) (g h : A -> R) l : map2 f (map g l) (map h l) = map (fun x => f (g x) (h x)) l.
Proof. unfold map2. induction l as [|x l IH]; [reflexivity|]. simpl. f_equal. exact IH. Qed.

(** * Polar.blend *)
Definition blend_alpha (p q : polar) : list R :=
  filter (fun a => rleb (Rmax (first (p_alpha p)) (first (p_alpha q))) a &&
                   rleb a (Rmin (final (p_alpha p)) (final (p_alpha q)))) (union1d (p_alpha p) (p_alpha q)).
Definition blend_col (k : column) (p q : polar) (w : R) : list R :=
  map (fun a => lerp w (ival k p a) (ival k q a)) (blend_alpha p q).
Definition blend_val (p q : polar) (w : R) : polar :=
  mkPolar (lerp w (p_Re p) (p_Re q)) (blend_alpha p q)
    (blend_col CL p q w) (blend_col CD p q w) (blend_col CM p q w).

Lemma blend_eq p q w : wf_polar p -> wf_polar q -> polar_blend p q w = Ok (blend_val p q w).
Proof.
  intros Hp Hq. unfold polar_blend.
  rewrite !amin_first, !amax_final by (apply Hp || apply Hq). cbn [bind].
  fold (blend_alpha p q).
  rewrite !np_interp_ok by (apply Hp || apply Hq || (symmetry; apply Hp) || (symmetry; apply Hq)).
  cbn [bind]. rewrite !map2_map. reflexivity.
Qed.

Lemma blend_alpha_in p q a : In a (blend_alpha p q) <->
  (In a (p_alpha p) \/ In a (p_alpha q)) /\
  (first (p_alpha p) <= a <= final (p_alpha p)) /\ (first (p_alpha q) <= a <= final (p_alpha q)).
Proof.
  unfold blend_alpha. rewrite filter_In, union1d_in, andb_true_iff, !rleb_true.
  assert (Rmax (first (p_alpha p)) (first (p_alpha q)) <= a <->
          first (p_alpha p) <= a /\ first (p_alpha q) <= a) as ->.
  { split; [intros H; split; eapply Rle_trans; [apply Rmax_l|exact H|apply Rmax_r|exact H]|].
    intros []; apply Rmax_lub; assumption. }
  assert (a <= Rmin (final (p_alpha p)) (final (p_alpha q)) <->
          a <= final (p_alpha p) /\ a <= final (p_alpha q)) as ->; [|tauto].
  split; [intros H; split; eapply Rle_trans; [exact H|apply Rmin_l|exact H|apply Rmin_r]|].
  intros []; apply Rmin_glb; assumption.
Qed.

Lemma blend_alpha_incr p q : increasing (blend_alpha p q).
Proof. apply filter_incr, union1d_incr. Qed.

Lemma nth_map_lt {A} (f : A -> R) l i d : (i < length l)%nat -> nth i (map f l) 0 = f (nth i l d).
Proof.
  intros H. rewrite (nth_indep _ 0 (f d)) by (rewrite map_length; exact H). apply map_nth.
Qed.

Lemma blend_wellformed p q w : wf_polar p -> wf_polar q -> exists b, polar_blend p q w = Ok b /\
  increasing (p_alpha b) /\
  (forall a, In a (p_alpha b) <-> (In a (p_alpha p) \/ In a (p_alpha q)) /\ covers p a /\ covers q a) /\
  (forall k, length (col k b) = length (p_alpha b)) /\
  p_Re b = (1 - w) * p_Re p + w * p_Re q.
Proof.
  intros Hp Hq. exists (blend_val p q w). split; [apply blend_eq; assumption|].
  split; [apply blend_alpha_incr|]. split; [intros a; apply blend_alpha_in|].
  split; [intros []; apply map_length|]. cbn [p_Re blend_val]. unfold lerp. ring.
Qed.

Lemma blend_value p q w b : wf_polar p -> wf_polar q -> polar_blend p q w = Ok b ->
  forall k i y1 y2, (i < length (p_alpha b))%nat ->
  value k p (nth i (p_alpha b) 0) y1 -> value k q (nth i (p_alpha b) 0) y2 ->
  nth i (col k b) 0 = (1 - w) * y1 + w * y2.
Proof.
  intros Hp Hq E k i y1 y2 Hi V1 V2. rewrite blend_eq in E by assumption.
  apply (f_equal (fun r => match r with Ok b => b | Raise _ => b end)) in E. subst b.
  apply value_unique in V1; [|exact Hp]. apply value_unique in V2; [|exact Hq].
  cbn [p_alpha blend_val] in *. assert (F : forall k, col k (blend_val p q w) = blend_col k p q w) by (intros []; reflexivity).
  rewrite F. unfold blend_col. rewrite (nth_map_lt _ _ _ 0) by exact Hi. rewrite V1, V2. unfold lerp. ring.
Qed.

Lemma polar_eta p : p = mkPolar (p_Re p) (p_alpha p) (col CL p) (col CD p) (col CM p).
Proof. destruct p; reflexivity. Qed.

Lemma blend_same_alpha p q : wf_polar p -> p_alpha q = p_alpha p -> blend_alpha p q = p_alpha p.
Proof.
  intros Hp E. apply incr_unique; [apply blend_alpha_incr|apply Hp|]. intros x. rewrite blend_alpha_in, E.
  split; [tauto|]. intros Hx. pose proof (in_first_final _ _ (proj1 (proj2 Hp)) Hx). tauto.
Qed.

Lemma blend_self p w : wf_polar p -> polar_blend p p w = Ok p.
Proof.
  intros Hp. rewrite blend_eq by assumption. f_equal. rewrite (polar_eta p) at 3. unfold blend_val, blend_col.
  rewrite (blend_same_alpha p p Hp eq_refl).
  assert (L : forall x, lerp w x x = x) by (intros; unfold lerp; ring).
  rewrite L. rewrite <- !(ival_nodes _ p Hp).
  f_equal; apply map_ext; intros; apply L.
Qed.

Lemma blend_one_same p q : wf_polar p -> wf_polar q -> p_alpha q = p_alpha p -> polar_blend p q 1 = Ok q.
Proof.
  intros Hp Hq E. rewrite blend_eq by assumption. f_equal. rewrite (polar_eta q) at 2. unfold blend_val, blend_col.
  rewrite (blend_same_alpha p q Hp E), <- E.
  assert (L : forall x y, lerp 1 x y = y) by (intros; unfold lerp; ring).
  rewrite L. rewrite <- !(ival_nodes _ q Hq).
  f_equal; apply map_ext; intros; apply L.
Qed.

Lemma blend_alpha_swap p q : blend_alpha p q = blend_alpha q p.
Proof.
  apply incr_unique; try apply blend_alpha_incr. intros x. rewrite !blend_alpha_in. tauto.
Qed.

Lemma blend_swap p q w : wf_polar p -> wf_polar q -> polar_blend q p (1 - w) = polar_blend p q w.
Proof.
  intros Hp Hq. rewrite !blend_eq by assumption. f_equal. unfold blend_val, blend_col.
  rewrite (blend_alpha_swap q p).
  assert (L : forall x y, lerp (1 - w) x y = lerp w y x) by (intros; unfold lerp; ring).
  f_equal; [apply L| | |]; apply map_ext; intros; apply L.
Qed.

(** A common angle survives blending. *)
Lemma blend_val_wf p q w a : wf_polar p -> wf_polar q -> covers p a -> covers q a ->
  wf_polar (blend_val p q w) /\ (forall c, covers p c -> covers q c -> covers (blend_val p q w) c).
Proof.
  intros Hp Hq Ca Cb.
  set (lo := Rmax (first (p_alpha p)) (first (p_alpha q))).
  set (hi := Rmin (final (p_alpha p)) (final (p_alpha q))).
  unfold covers in *.
  assert (Hlh : lo <= hi).
  { unfold lo, hi. apply Rmax_lub; apply Rmin_glb; lra. }
  assert (Hl : In lo (blend_alpha p q)).
  { apply blend_alpha_in. pose proof (Rmax_l (first (p_alpha p)) (first (p_alpha q))).
    pose proof (Rmax_r (first (p_alpha p)) (first (p_alpha q))).
    pose proof (Rmin_l (final (p_alpha p)) (final (p_alpha q))).
    pose proof (Rmin_r (final (p_alpha p)) (final (p_alpha q))). fold lo in H, H0; fold hi in H1, H2.
    split; [|lra]. unfold lo, Rmax. destruct (Rle_dec _ _); [right|left]; apply first_in; [apply Hq|apply Hp]. }
  assert (Hh : In hi (blend_alpha p q)).
  { apply blend_alpha_in. pose proof (Rmax_l (first (p_alpha p)) (first (p_alpha q))).
    pose proof (Rmax_r (first (p_alpha p)) (first (p_alpha q))).
    pose proof (Rmin_l (final (p_alpha p)) (final (p_alpha q))).
    pose proof (Rmin_r (final (p_alpha p)) (final (p_alpha q))). fold lo in H, H0; fold hi in H1, H2.
    split; [|lra]. unfold hi, Rmin. destruct (Rle_dec _ _); [left|right]; apply final_in; [apply Hp|apply Hq]. }
  split.
  - split; [cbn [p_alpha blend_val]; intros E; rewrite E in Hl; destruct Hl|].
    split; [apply blend_alpha_incr|]. cbn [blend_val p_cl p_cd p_cm p_alpha]. unfold blend_col.
    rewrite !map_length. auto.
  - intros c Hc1 Hc2. cbn [p_alpha blend_val].
    pose proof (in_first_final _ _ (blend_alpha_incr p q) Hl).
    pose proof (in_first_final _ _ (blend_alpha_incr p q) Hh).
    assert (lo <= c <= hi); [|lra]. split; [apply Rmax_lub|apply Rmin_glb]; lra.
Qed.

(** * Sorting by Reynolds number *)
Lemma pinsert_perm p l : Permutation (p :: l) (pinsert p l).
Proof.
  induction l as [|q l IH]; cbn [pinsert]; [reflexivity|]. destruct (rleb _ _); [reflexivity|].
  rewrite perm_swap. constructor. exact IH.
Qed.

Lemma psort_perm l : Permutation l (psort l).
Proof.
  induction l as [|p l IH]; [constructor|]. cbn [psort fold_right]. fold (psort l).
  rewrite <- pinsert_perm. constructor. exact IH.
Qed.

Definition re_le (p q : polar) : Prop := p_Re p <= p_Re q.

Lemma sorted_ss l : sorted_by_Re l <-> StronglySorted re_le l.
Proof.
  unfold sorted_by_Re. induction l as [|x l IH].
  - split; [constructor|]. intros _ i j Hij. simpl in Hij. lia.
  - split.
    + intros H. constructor.
      * apply IH. intros i j Hij. apply (H (S i) (S j)). simpl. lia.
      * apply Forall_forall. intros y Hy. apply (In_nth _ _ polar0) in Hy. destruct Hy as (i & Hi & <-).
        unfold re_le. specialize (H 0%nat (S i)). cbn [map nth] in H.
        rewrite (nth_map_lt _ _ _ polar0) in H by exact Hi. apply H. simpl. rewrite map_length. lia.
    + intros H. inversion H as [|? ? H1 H2]; subst. apply IH in H1. intros i j Hij. cbn [map length] in Hij.
      destruct j as [|j]; [lia|]. destruct i as [|i]; cbn [map nth].
      * rewrite Forall_forall in H2. rewrite map_length in Hij.
        rewrite (nth_map_lt _ _ _ polar0) by lia. apply H2. apply nth_In. lia.
      * apply H1. lia.
Qed.

Lemma pinsert_ss p l : StronglySorted re_le l -> StronglySorted re_le (pinsert p l).
Proof.
  induction 1 as [|q l H IH F]; cbn [pinsert]; [repeat constructor|].
  destruct (rleb _ _) eqn:E; rb_hyps.
  - constructor; [constructor; assumption|]. constructor; [exact E|].
    eapply Forall_impl; [|exact F]. unfold re_le. intros; lra.
  - constructor; [exact IH|]. rewrite <- pinsert_perm. constructor; [unfold re_le; lra|exact F].
Qed.

Lemma psort_ss l : StronglySorted re_le (psort l).
Proof. induction l; [constructor|]. apply pinsert_ss. assumption. Qed.

Lemma psort_sorted l : sorted_by_Re (psort l).
Proof. apply sorted_ss, psort_ss. Qed.

Lemma pinsert_first p l : Forall (re_le p) l -> pinsert p l = p :: l.
Proof.
  destruct l as [|q l]; [reflexivity|]. intros F. inversion F; subst. cbn [pinsert].
  replace (rleb (p_Re p) (p_Re q)) with true; [reflexivity|]. symmetry. apply rleb_true. assumption.
Qed.

Lemma psort_id l : sorted_by_Re l -> psort l = l.
Proof.
  rewrite sorted_ss. induction 1 as [|p l H IH F]; [reflexivity|].
  cbn [psort fold_right]. fold (psort l). rewrite IH. apply pinsert_first. exact F.
Qed.

Lemma pinsert_at p l r : at_Re r (pinsert p l) = at_Re r (p :: l).
Proof.
  unfold at_Re. induction l as [|q l IH]; cbn [pinsert]; [reflexivity|].
  destruct (rleb (p_Re p) (p_Re q)) eqn:E; rb_hyps; [reflexivity|]. simpl in *. rewrite IH.
  destruct (reqb (p_Re q) r) eqn:E1; destruct (reqb (p_Re p) r) eqn:E2; rb_hyps; try reflexivity. lra.
Qed.

Lemma psort_at l r : at_Re r (psort l) = at_Re r l.
Proof.
  induction l as [|p l IH]; [reflexivity|]. cbn [psort fold_right]. fold (psort l). rewrite pinsert_at.
  unfold at_Re in *. simpl. rewrite IH. reflexivity.
Qed.

Lemma airfoil_sorted l af : mk_airfoil l = Ok af ->
  Permutation l af /\ sorted_by_Re af /\ (forall r, at_Re r af = at_Re r l).
Proof.
  intros H. assert (af = psort l) as ->.
  { destruct l; [discriminate|]. cbn [mk_airfoil] in H.
    apply (f_equal (fun r => match r with Ok b => b | Raise _ => [] end)) in H. symmetry. exact H. }
  split; [apply psort_perm|]. split; [apply psort_sorted|apply psort_at].
Qed.

(** * getPolar *)
Lemma lastp_nth l : lastp l = nth (length l - 1) l polar0.
Proof.
  unfold lastp. induction l as [|x l IH]; [reflexivity|]. destruct l as [|y l]; [reflexivity|].
  change (last (x :: y :: l) polar0) with (last (y :: l) polar0). rewrite IH. simpl. rewrite Nat.sub_0_r. reflexivity.
Qed.

Lemma searchsorted_spec l x : let i := searchsorted l x in
  (i <= length l)%nat /\ (forall j, (j < i)%nat -> nth j l 0 < x) /\ ((i < length l)%nat -> x <= nth i l 0).
Proof.
  induction l as [|y l IH]; cbn [searchsorted]; [simpl; repeat split; intros; lia|].
  destruct (rltb y x) eqn:E; rb_hyps; cbn zeta in *.
  - destruct IH as (A & B & C). cbn [length]. split; [lia|]. split.
    + intros [|j] Hj; [exact E|]. apply B. lia.
    + intros H. apply C. lia.
  - split; [simpl; lia|]. split; [intros; lia|]. intros _. exact E.
Qed.

Lemma getPolar_low p0 l Re : Re <= p_Re p0 -> getPolar (p0 :: l) Re = Ok p0.
Proof. intros H. cbn [getPolar]. replace (rleb _ _) with true by (symmetry; apply rleb_true; exact H). reflexivity. Qed.

Lemma getPolar_mid af Re : af <> [] -> p_Re (nth 0 af polar0) < Re -> Re < p_Re (lastp af) ->
  exists i w, (S i < length af)%nat /\ 0 < w <= 1 /\
   p_Re (nth i af polar0) < Re <= p_Re (nth (S i) af polar0) /\
   Re = (1 - w) * p_Re (nth i af polar0) + w * p_Re (nth (S i) af polar0) /\
   getPolar af Re = polar_blend (nth i af polar0) (nth (S i) af polar0) w.
Proof.
  intros Hne H1 H2. destruct af as [|p0 l]; [congruence|].
  set (af := p0 :: l) in *. pose proof (searchsorted_spec (map p_Re af) Re) as (A & B & C). cbn zeta in *.
  set (i := searchsorted (map p_Re af) Re) in *. rewrite map_length in A, C.
  assert (N : forall k, (k < length af)%nat -> nth k (map p_Re af) 0 = p_Re (nth k af polar0))
    by (intros; apply nth_map_lt; assumption).
  assert (Hi0 : i <> 0%nat).
  { intros E. rewrite E in C. rewrite N in C by (simpl; lia). specialize (C ltac:(simpl; lia)). lra. }
  assert (Hil : (i < length af)%nat).
  { destruct (Nat.eq_dec i (length af)) as [E|]; [|lia]. specialize (B (length af - 1)%nat ltac:(lia)).
    rewrite N in B by lia. rewrite lastp_nth in H2. lra. }
  specialize (C Hil). specialize (B (i - 1)%nat ltac:(lia)). rewrite N in B, C by lia.
  assert (S (i - 1) = i) as Ei by lia.
  exists (i - 1)%nat, ((Re - p_Re (nth (i - 1) af polar0)) / (p_Re (nth i af polar0) - p_Re (nth (i - 1) af polar0))).
  rewrite Ei. split; [exact Hil|]. split.
  - split; [apply Rdiv_lt_0_compat; lra|]. apply Rmult_le_reg_r with (p_Re (nth i af polar0) - p_Re (nth (i - 1) af polar0)); [lra|].
    unfold Rdiv. rewrite Rmult_assoc, Rinv_l by lra. lra.
  - split; [lra|]. split; [field; lra|].
    unfold getPolar. unfold af at 1. cbv iota.
    replace (rleb Re (p_Re p0)) with false by (symmetry; apply rleb_false; exact H1).
    replace (rleb (p_Re (lastp af)) Re) with false by (symmetry; apply rleb_false; exact H2).
    cbn zeta. fold i. rewrite !N by lia. reflexivity.
Qed.

Lemma getPolar_high af Re : af <> [] -> p_Re (nth 0 af polar0) < Re -> p_Re (lastp af) <= Re -> getPolar af Re = Ok (lastp af).
Proof.
  intros Hne H1 H2. destruct af as [|p0 l]; [congruence|]. cbn [getPolar].
  replace (rleb Re (p_Re p0)) with false by (symmetry; apply rleb_false; exact H1).
  replace (rleb (p_Re (lastp (p0 :: l))) Re) with true by (symmetry; apply rleb_true; exact H2). reflexivity.
Qed.

Lemma sorted_nth l i j : sorted_by_Re l -> (i <= j < length l)%nat -> p_Re (nth i l polar0) <= p_Re (nth j l polar0).
Proof.
  intros H Hij. rewrite <- !(nth_map_lt p_Re l) by lia. apply nondecreasing_le; [exact H|]. rewrite map_length. lia.
Qed.

(** Every lookup succeeds on usable polars with a common angle, and the result is usable with that angle. *)
Lemma getPolar_ok af Re a : af <> [] -> sorted_by_Re af -> Forall wf_polar af -> Forall (fun p => covers p a) af ->
  exists p, getPolar af Re = Ok p /\ wf_polar p /\ covers p a /\
    p_Re p = clamp (p_Re (nth 0 af polar0)) (p_Re (lastp af)) Re.
Proof.
  intros Hne Hs Hwf Hc. rewrite Forall_forall in Hwf, Hc. unfold clamp.
  assert (Hlen : (0 < length af)%nat) by (destruct af; [congruence|simpl; lia]).
  pose proof (sorted_nth af 0 (length af - 1) Hs ltac:(lia)) as Hfl. rewrite <- lastp_nth in Hfl.
  assert (Hl : In (lastp af) af) by (rewrite lastp_nth; apply nth_In; lia).
  destruct (Rle_lt_dec Re (p_Re (nth 0 af polar0))) as [H|H].
  - destruct af as [|p0 l]; [congruence|]. exists p0. cbn [nth] in *. split; [apply getPolar_low; exact H|].
    split; [apply Hwf; left; reflexivity|]. split; [apply Hc; left; reflexivity|].
    rewrite Rmax_left by exact H. rewrite Rmin_right; lra.
  - destruct (Rle_lt_dec (p_Re (lastp af)) Re) as [H'|H'].
    + exists (lastp af). split; [apply getPolar_high; assumption|]. split; [auto|]. split; [auto|].
      rewrite Rmax_right by lra. rewrite Rmin_left; lra.
    + destruct (getPolar_mid af Re Hne H H') as (i & w & Hi & Hw & Hb & HRe & E).
      assert (I1 : In (nth i af polar0) af) by (apply nth_In; lia).
      assert (I2 : In (nth (S i) af polar0) af) by (apply nth_In; lia).
      exists (blend_val (nth i af polar0) (nth (S i) af polar0) w).
      rewrite E. split; [apply blend_eq; auto|].
      destruct (blend_val_wf (nth i af polar0) (nth (S i) af polar0) w a) as [W C]; auto.
      split; [exact W|]. split; [auto|]. cbn [p_Re blend_val]. rewrite Rmax_right by lra. rewrite Rmin_right by lra.
      unfold lerp. lra.
Qed.

Lemma getPolar_stored af i : sorted_by_Re af -> Forall wf_polar af ->
  (forall p q, In p af -> In q af -> p_alpha p = p_alpha q) ->
  (forall j k, (j < k < length af)%nat -> p_Re (nth j af polar0) <> p_Re (nth k af polar0)) ->
  (i < length af)%nat ->
  getPolar af (p_Re (nth i af polar0)) = Ok (nth i af polar0).
Proof.
  intros Hs Hwf Hg Hd Hi. assert (Hne : af <> []) by (intros ->; simpl in Hi; lia).
  rewrite Forall_forall in Hwf.
  assert (Hlt : forall j k, (j < k < length af)%nat -> p_Re (nth j af polar0) < p_Re (nth k af polar0)).
  { intros j k Hjk. pose proof (sorted_nth af j k Hs ltac:(lia)). specialize (Hd j k Hjk). lra. }
  destruct (Nat.eq_dec i 0) as [->|Hi0].
  { destruct af as [|p0 l]; [congruence|]. apply getPolar_low. cbn [nth]. lra. }
  pose proof (Hlt 0%nat i ltac:(lia)) as H0.
  destruct (Nat.eq_dec i (length af - 1)) as [E|Hil].
  { subst i. rewrite <- lastp_nth in *. apply getPolar_high; [assumption|assumption|lra]. }
  pose proof (Hlt i (length af - 1)%nat ltac:(lia)) as Hlast. rewrite <- lastp_nth in Hlast.
  destruct (getPolar_mid af _ Hne H0 Hlast) as (j & w & Hj & Hw & Hb & HRe & E).
  assert (S j = i).
  { destruct (Nat.lt_trichotomy (S j) i) as [L|[L|L]]; [|exact L|].
    - pose proof (Hlt (S j) i ltac:(lia)). lra.
    - destruct (Nat.eq_dec i j) as [->|]; [lra|]. pose proof (Hlt i j ltac:(lia)). lra. }
  subst i. rewrite E.
  assert (w = 1).
  { assert ((1 - w) * (p_Re (nth (S j) af polar0) - p_Re (nth j af polar0)) = 0) as Z by lra.
    apply Rmult_integral in Z. destruct Z; lra. }
  subst w. apply blend_one_same; [apply Hwf, nth_In; lia|apply Hwf, nth_In; lia|].
  apply Hg; apply nth_In; lia.
Qed.

(** * Airfoil.blend *)
Lemma mapM_ok {A B} (f : A -> res B) (P : A -> B -> Prop) l :
  (forall x, In x l -> exists y, f x = Ok y /\ P x y) ->
  exists ys, mapM f l = Ok ys /\ Forall2 (fun x y => f x = Ok y /\ P x y) l ys.
Proof.
  induction l as [|x l IH]; intros H; [exists []; split; [reflexivity|constructor]|].
  destruct (H x (or_introl eq_refl)) as (y & Ey & Py).
  destruct (IH (fun z Hz => H z (or_intror Hz))) as (ys & E & F).
  exists (y :: ys). cbn [mapM]. rewrite Ey. cbn [bind]. rewrite E. split; [reflexivity|constructor; auto].
Qed.

Lemma F2_length {A B} (P : A -> B -> Prop) l m : Forall2 P l m -> length l = length m.
Proof. induction 1; simpl; congruence. Qed.

Lemma F2_impl {A B} (P Q : A -> B -> Prop) l m : (forall x y, P x y -> Q x y) -> Forall2 P l m -> Forall2 Q l m.
Proof. intros H. induction 1; constructor; auto. Qed.

Lemma mapM_length {A B} (f : A -> res B) l : forall ys, mapM f l = Ok ys -> length ys = length l.
Proof.
  induction l as [|x l IH]; intros ys H; cbn [mapM] in H.
  - apply (f_equal (fun r => match r with Ok b => b | Raise _ => [] end)) in H. subst ys. reflexivity.
  - destruct (f x) as [y|]; [|discriminate]. cbn [bind] in H. destruct (mapM f l) as [zs|]; [|discriminate].
    cbn [bind] in H. apply (f_equal (fun r => match r with Ok b => b | Raise _ => [] end)) in H. subst ys.
    simpl. f_equal. apply IH. reflexivity.
Qed.

Lemma mk_airfoil_ok l : l <> [] -> mk_airfoil l = Ok (psort l).
Proof. destruct l; [congruence|reflexivity]. Qed.

Lemma blend_union a1 a2 w c : a1 <> [] -> a2 <> [] -> sorted_by_Re a1 -> sorted_by_Re a2 ->
  Forall wf_polar (a1 ++ a2) -> Forall (fun p => covers p c) (a1 ++ a2) ->
  exists af Rs bs, airfoil_blend a1 a2 w = Ok af /\
    increasing Rs /\ (forall r, In r Rs <-> In r (map p_Re a1) \/ In r (map p_Re a2)) /\
    Permutation bs af /\ sorted_by_Re af /\
    Forall2 (fun r b => exists p1 p2, getPolar a1 r = Ok p1 /\ getPolar a2 r = Ok p2 /\ polar_blend p1 p2 w = Ok b /\
       p_Re b = (1 - w) * clamp (p_Re (nth 0 a1 polar0)) (p_Re (lastp a1)) r
                + w * clamp (p_Re (nth 0 a2 polar0)) (p_Re (lastp a2)) r) Rs bs.
Proof.
  intros N1 N2 S1 S2 W C. apply Forall_app in W. destruct W as [W1 W2].
  apply Forall_app in C. destruct C as [C1 C2].
  set (Rs := union1d (map p_Re a1) (map p_Re a2)).
  set (f := fun Re => do p1 <- getPolar a1 Re; do p2 <- getPolar a2 Re; polar_blend p1 p2 w).
  destruct (mapM_ok f (fun r b => exists p1 p2, getPolar a1 r = Ok p1 /\ getPolar a2 r = Ok p2 /\ polar_blend p1 p2 w = Ok b /\
       p_Re b = (1 - w) * clamp (p_Re (nth 0 a1 polar0)) (p_Re (lastp a1)) r
                + w * clamp (p_Re (nth 0 a2 polar0)) (p_Re (lastp a2)) r) Rs) as (bs & E & F).
  - intros r _. destruct (getPolar_ok a1 r c N1 S1 W1 C1) as (p1 & E1 & V1 & K1 & R1).
    destruct (getPolar_ok a2 r c N2 S2 W2 C2) as (p2 & E2 & V2 & K2 & R2).
    exists (blend_val p1 p2 w). unfold f. rewrite E1. cbn [bind]. rewrite E2. cbn [bind].
    rewrite blend_eq by assumption. split; [reflexivity|]. exists p1, p2.
    repeat match goal with |- _ /\ _ => split end; auto; [apply blend_eq; assumption|].
    cbn [p_Re blend_val]. unfold lerp. rewrite R1, R2. ring.
  - exists (psort bs), Rs, bs. split.
    + unfold airfoil_blend. fold f Rs. rewrite E. cbn [bind]. apply mk_airfoil_ok. intros Hb.
      apply F2_length in F. rewrite Hb in F. assert (In (p_Re (nth 0 a1 polar0)) Rs) as I.
      { apply union1d_in. left. apply in_map, nth_In. destruct a1; [congruence|simpl; lia]. }
      destruct Rs; [destruct I|discriminate].
    + split; [apply union1d_incr|]. split; [apply union1d_in|]. split; [apply psort_perm|].
      split; [apply psort_sorted|]. eapply F2_impl; [|exact F]. simpl. tauto.
Qed.

Lemma clamp_mono lo hi x y : x <= y -> clamp lo hi x <= clamp lo hi y.
Proof.
  intros H. unfold clamp. apply Rle_min_compat_l. apply Rle_max_compat_l. exact H.
Qed.

(** For weights in [0, 1] the blended polars come out in the order of their Reynolds numbers. *)
Lemma blend_union_order a1 a2 w c : a1 <> [] -> a2 <> [] -> sorted_by_Re a1 -> sorted_by_Re a2 ->
  Forall wf_polar (a1 ++ a2) -> Forall (fun p => covers p c) (a1 ++ a2) -> 0 <= w <= 1 ->
  exists af, airfoil_blend a1 a2 w = Ok af /\
    map p_Re af = map (fun r => (1 - w) * clamp (p_Re (nth 0 a1 polar0)) (p_Re (lastp a1)) r
                + w * clamp (p_Re (nth 0 a2 polar0)) (p_Re (lastp a2)) r)
                   (union1d (map p_Re a1) (map p_Re a2)).
Proof.
  intros N1 N2 S1 S2 W C Hw.
  destruct (blend_union a1 a2 w c N1 N2 S1 S2 W C) as (af & Rs & bs & E & I & M & P & S & F).
  exists af. split; [exact E|].
  assert (Rs = union1d (map p_Re a1) (map p_Re a2)) as <-.
  { apply incr_unique; [exact I|apply union1d_incr|]. intros x. rewrite M, union1d_in. reflexivity. }
  set (g := fun r => (1 - w) * clamp (p_Re (nth 0 a1 polar0)) (p_Re (lastp a1)) r
                + w * clamp (p_Re (nth 0 a2 polar0)) (p_Re (lastp a2)) r) in *.
  assert (Eb : map p_Re bs = map g Rs).
  { clear - F. induction F as [|r b Rs bs (p1 & p2 & _ & _ & _ & H) F IH]; [reflexivity|]. cbn [map]. rewrite H, IH. reflexivity. }
  assert (Sb : sorted_by_Re bs).
  { unfold sorted_by_Re. rewrite Eb. intros i j Hij. rewrite map_length in Hij.
    rewrite !(nth_map_lt _ _ _ 0) by lia. unfold g. specialize (I i j Hij).
    pose proof (clamp_mono (p_Re (nth 0 a1 polar0)) (p_Re (lastp a1)) _ _ (Rlt_le _ _ I)).
    pose proof (clamp_mono (p_Re (nth 0 a2 polar0)) (p_Re (lastp a2)) _ _ (Rlt_le _ _ I)).
    apply Rplus_le_compat; apply Rmult_le_compat_l; lra. }
  rewrite <- Eb. clear - P S Sb.
  (* two sorted permutations have the same keys *)
  assert (Pm : Permutation (map p_Re bs) (map p_Re af)) by (apply Permutation_map; exact P).
  unfold sorted_by_Re in *. revert Pm S Sb. generalize (map p_Re bs) (map p_Re af). clear.
  intros l m Pm. revert m Pm. induction l as [|x l IH]; intros m Pm Sm Sl.
  - apply Permutation_nil in Pm. exact Pm.
  - destruct m as [|y m]; [apply Permutation_sym, Permutation_nil in Pm; discriminate|].
    assert (x = y).
    { assert (Hx : In x (y :: m)) by (eapply Permutation_in; [exact Pm|left; reflexivity]).
      assert (Hy : In y (x :: l)) by (eapply Permutation_in; [apply Permutation_sym; exact Pm|left; reflexivity]).
      apply (In_nth _ _ 0) in Hx. destruct Hx as (i & Hi & Ei).
      apply (In_nth _ _ 0) in Hy. destruct Hy as (j & Hj & Ej).
      pose proof (nondecreasing_le _ 0%nat i Sm ltac:(lia)) as A. pose proof (nondecreasing_le _ 0%nat j Sl ltac:(lia)) as B.
      rewrite Ei in A. rewrite Ej in B. cbn [nth] in A, B. lra. }
    subst y. f_equal. apply IH; [eapply Permutation_cons_inv; exact Pm| |].
    + intros i j Hij. apply (Sm (S i) (S j)). simpl. lia.
    + intros i j Hij. apply (Sl (S i) (S j)). simpl. lia.
Qed.

(** * interpToCommonAlpha *)
Lemma common_alpha_gen af : forall a, increasing a ->
  increasing (fold_left (fun a p => union1d a (p_alpha p)) af a) /\
  forall x, In x (fold_left (fun a p => union1d a (p_alpha p)) af a) <-> In x a \/ exists p, In p af /\ In x (p_alpha p).
Proof.
  induction af as [|p af IH]; intros a Ha; cbn [fold_left].
  - split; [exact Ha|]. intros x. split; [tauto|]. intros [H|(p & [] & _)]; exact H.
  - destruct (IH (union1d a (p_alpha p)) (union1d_incr _ _)) as [I M]. split; [exact I|].
    intros x. rewrite M, union1d_in. split.
    + intros [[H|H]|(q & Hq & Hx)]; [auto|right; exists p; simpl; auto|right; exists q; simpl; auto].
    + intros [H|(q & [<-|Hq] & Hx)]; [auto|auto|right; exists q; auto].
Qed.

Lemma common_alpha_spec af : increasing (common_alpha af) /\
  forall x, In x (common_alpha af) <-> exists p, In p af /\ In x (p_alpha p).
Proof.
  destruct (common_alpha_gen af []) as [I M]; [intros i j Hij; simpl in Hij; lia|].
  split; [exact I|]. intros x. unfold common_alpha. rewrite M. simpl. tauto.
Qed.

Definition resampled (alpha : list R) (p : polar) : polar :=
  mkPolar (p_Re p) alpha (map (ival CL p) alpha) (map (ival CD p) alpha) (map (ival CM p) alpha).

Lemma resample_eq alpha p : wf_polar p -> resample alpha p = Ok (resampled alpha p).
Proof.
  intros H. unfold resample.
  rewrite !np_interp_ok by (apply H || (symmetry; apply H)). reflexivity.
Qed.

Lemma mapM_map {A B} (f : A -> res B) (g : A -> B) l : Forall (fun x => f x = Ok (g x)) l -> mapM f l = Ok (map g l).
Proof. induction 1 as [|x l H F IH]; [reflexivity|]. cbn [mapM]. rewrite H. cbn [bind]. rewrite IH. reflexivity. Qed.

Lemma common_eq af alpha : af <> [] -> sorted_by_Re af -> Forall wf_polar af ->
  interpToCommonAlpha af alpha =
  Ok (map (resampled (match alpha with None => common_alpha af | Some a => a end)) af).
Proof.
  intros Hne Hs W. unfold interpToCommonAlpha. set (a := match alpha with None => _ | Some a => a end).
  rewrite (mapM_map _ (resampled a)) by (eapply Forall_impl; [|exact W]; intros; apply resample_eq; assumption).
  cbn [bind]. rewrite mk_airfoil_ok by (destruct af; [congruence|discriminate]). f_equal.
  apply psort_id. unfold sorted_by_Re in *. rewrite map_map. cbn [resampled p_Re]. exact Hs.
Qed.

Lemma resampled_id alpha p : wf_polar p -> p_alpha p = alpha -> resampled alpha p = p.
Proof.
  intros H <-. rewrite (polar_eta p) at 3. unfold resampled. rewrite !ival_nodes by exact H. reflexivity.
Qed.

Lemma resampled_wf alpha p : increasing alpha -> alpha <> [] -> wf_polar (resampled alpha p).
Proof.
  intros I N. split; [exact N|]. split; [exact I|]. cbn [resampled p_cl p_cd p_cm p_alpha]. rewrite !map_length. auto.
Qed.

Lemma common_ne af : af <> [] -> Forall wf_polar af -> common_alpha af <> [].
Proof.
  intros Hne W. destruct af as [|p l]; [congruence|]. inversion W; subst.
  assert (In (first (p_alpha p)) (common_alpha (p :: l))) as I.
  { apply common_alpha_spec. exists p. split; [left; reflexivity|]. apply first_in. apply H1. }
  intros E. rewrite E in I. destruct I.
Qed.

Lemma resampled_col k alpha p : col k (resampled alpha p) = map (ival k p) alpha.
Proof. destruct k; reflexivity. Qed.

Lemma common_unified af : af <> [] -> sorted_by_Re af -> Forall wf_polar af ->
  exists af' grid, interpToCommonAlpha af None = Ok af' /\
    increasing grid /\ (forall a, In a grid <-> exists p, In p af /\ In a (p_alpha p)) /\
    Forall2 (fun p q => p_Re q = p_Re p /\ p_alpha q = grid /\
       forall k, length (col k q) = length grid /\
         (forall i, (i < length grid)%nat -> value k p (nth i grid 0) (nth i (col k q) 0)) /\
         (forall i j, (i < length grid)%nat -> (j < length (p_alpha p))%nat ->
            nth i grid 0 = nth j (p_alpha p) 0 -> nth i (col k q) 0 = nth j (col k p) 0)) af af' /\
    interpToCommonAlpha af' None = Ok af'.
Proof.
  intros Hne Hs W. destruct (common_alpha_spec af) as [I M]. set (grid := common_alpha af) in *.
  pose proof (common_ne af Hne W) as Ng. fold grid in Ng.
  exists (map (resampled grid) af), grid. split; [rewrite common_eq by assumption; reflexivity|].
  split; [exact I|]. split; [exact M|]. split.
  - clear Hne Hs M. clearbody grid. induction W as [|p l Wp W IH]; [constructor|]. cbn [map]. constructor; [|exact IH].
    split; [reflexivity|]. split; [reflexivity|]. intros k. rewrite resampled_col. split; [apply map_length|].
    split.
    + intros i Hi. rewrite (nth_map_lt _ _ _ 0) by exact Hi. apply value_ival. exact Wp.
    + intros i j Hi Hj E. rewrite (nth_map_lt _ _ _ 0) by exact Hi. rewrite E. apply ival_node; assumption.
  - assert (W' : Forall wf_polar (map (resampled grid) af)).
    { apply Forall_forall. intros q Hq. apply in_map_iff in Hq. destruct Hq as (p & <- & _). apply resampled_wf; assumption. }
    assert (Hne' : map (resampled grid) af <> []) by (destruct af; [congruence|discriminate]).
    assert (Hs' : sorted_by_Re (map (resampled grid) af)).
    { unfold sorted_by_Re in *. rewrite map_map. cbn [resampled p_Re]. exact Hs. }
    rewrite common_eq by assumption. f_equal.
    assert (common_alpha (map (resampled grid) af) = grid) as ->.
    { destruct (common_alpha_spec (map (resampled grid) af)) as [I' M']. apply incr_unique; [exact I'|exact I|].
      intros x. rewrite M'. split.
      - intros (q & Hq & Hx). apply in_map_iff in Hq. destruct Hq as (p & <- & _). exact Hx.
      - intros Hx. destruct af as [|p l]; [congruence|]. exists (resampled grid p). split; [left; reflexivity|exact Hx]. }
    rewrite map_map. apply map_ext_in. intros p Hp. apply resampled_id; [apply resampled_wf; assumption|reflexivity].
Qed.

(** * createDataGrid *)
Lemma set_col_ok M j v : (j < m_cols M)%nat -> length v = m_rows M ->
  set_col M j v = Ok (mkMat (m_rows M) (m_cols M) (fun a b => if Nat.eqb b j then nth a v 0 else m_at M a b)).
Proof.
  intros Hj Hv. unfold set_col. apply Nat.ltb_lt in Hj. rewrite Hj. cbn [negb]. rewrite Hv, Nat.eqb_refl. reflexivity.
Qed.

Lemma fill_grid_ok n nc ps : forall idx A B C,
  (idx + length ps <= nc)%nat ->
  (forall M, M = A \/ M = B \/ M = C -> m_rows M = n /\ m_cols M = nc) ->
  Forall (fun p => forall k, length (col k p) = n) ps ->
  exists A' B' C', fill_grid idx ps A B C = Ok (A', B', C') /\
   (forall M, M = A' \/ M = B' \/ M = C' -> m_rows M = n /\ m_cols M = nc) /\
   forall i j, (j < nc)%nat ->
     m_at A' i j = (if (idx <=? j)%nat && (j <? idx + length ps)%nat then nth i (col CL (nth (j - idx) ps polar0)) 0 else m_at A i j) /\
     m_at B' i j = (if (idx <=? j)%nat && (j <? idx + length ps)%nat then nth i (col CD (nth (j - idx) ps polar0)) 0 else m_at B i j) /\
     m_at C' i j = (if (idx <=? j)%nat && (j <? idx + length ps)%nat then nth i (col CM (nth (j - idx) ps polar0)) 0 else m_at C i j).
Proof.
  induction ps as [|p ps IH]; intros idx A B C Hl Hsh F.
  - exists A, B, C. split; [reflexivity|]. split; [exact Hsh|]. intros i j Hj. cbn [length].
    replace ((idx <=? j)%nat && (j <? idx + 0)%nat) with false; [auto|]. symmetry. apply andb_false_iff.
    rewrite Nat.leb_gt, Nat.ltb_ge. lia.
  - inversion F as [|? ? Fp Fs]; subst. cbn [length] in Hl.
    destruct (Hsh A ltac:(auto)) as [RA CA]. destruct (Hsh B ltac:(auto)) as [RB CB]. destruct (Hsh C ltac:(auto)) as [RC CC].
    cbn [fill_grid].
    rewrite (set_col_ok A) by first [rewrite CA; lia | rewrite RA; apply (Fp CL)]. cbn [bind].
    rewrite (set_col_ok B) by first [rewrite CB; lia | rewrite RB; apply (Fp CD)]. cbn [bind].
    rewrite (set_col_ok C) by first [rewrite CC; lia | rewrite RC; apply (Fp CM)]. cbn [bind].
    match goal with |- exists _ _ _, fill_grid _ _ ?a ?b ?c = _ /\ _ =>
      destruct (IH (S idx) a b c) as (A' & B' & C' & E & Sh & V); [lia| |exact Fs|] end.
    + intros M [->|[->| ->]]; cbn [m_rows m_cols]; auto.
    + exists A', B', C'. split; [exact E|]. split; [exact Sh|]. intros i j Hj. specialize (V i j Hj).
      cbn [m_at] in V. cbn [length].
      destruct (Nat.lt_trichotomy j idx) as [L|[L|L]].
      * replace ((S idx <=? j)%nat && (j <? S idx + length ps)%nat) with false in V
          by (symmetry; apply andb_false_iff; rewrite Nat.leb_gt; lia).
        replace ((idx <=? j)%nat && (j <? idx + S (length ps))%nat) with false
          by (symmetry; apply andb_false_iff; rewrite Nat.leb_gt; lia).
        replace (j =? idx)%nat with false in V by (symmetry; apply Nat.eqb_neq; lia). exact V.
      * subst j. replace ((S idx <=? idx)%nat && (idx <? S idx + length ps)%nat) with false in V
          by (symmetry; apply andb_false_iff; rewrite Nat.leb_gt; lia).
        replace ((idx <=? idx)%nat && (idx <? idx + S (length ps))%nat) with true
          by (symmetry; apply andb_true_iff; rewrite Nat.leb_le, Nat.ltb_lt; lia).
        rewrite Nat.eqb_refl in V. rewrite Nat.sub_diag. exact V.
      * replace (j - idx)%nat with (S (j - S idx)) by lia. cbn [nth].
        replace (j =? idx)%nat with false in V by (symmetry; apply Nat.eqb_neq; lia).
        replace ((idx <=? j)%nat && (j <? idx + S (length ps))%nat) with ((S idx <=? j)%nat && (j <? S idx + length ps)%nat); [exact V|].
        assert ((S idx <=? j)%nat = (idx <=? j)%nat) as ->.
        { transitivity true; [apply Nat.leb_le; lia|symmetry; apply Nat.leb_le; lia]. }
        f_equal. f_equal. lia.
Qed.

Lemma grid_ok af : af <> [] -> sorted_by_Re af -> Forall wf_polar af ->
  exists alpha Re A B C, createDataGrid af = Ok (alpha, Re, (A, B, C)) /\
    increasing alpha /\ (forall a, In a alpha <-> exists p, In p af /\ In a (p_alpha p)) /\
    Re = map p_Re af /\ nondecreasing Re /\
    (forall M, M = A \/ M = B \/ M = C -> m_rows M = length alpha /\ m_cols M = length af) /\
    forall i j, (i < length alpha)%nat -> (j < length af)%nat ->
      value CL (nth j af polar0) (nth i alpha 0) (m_at A i j) /\
      value CD (nth j af polar0) (nth i alpha 0) (m_at B i j) /\
      value CM (nth j af polar0) (nth i alpha 0) (m_at C i j).
Proof.
  intros Hne Hs W. destruct (common_alpha_spec af) as [I M]. set (grid := common_alpha af) in *.
  unfold createDataGrid. rewrite common_eq by assumption. cbn [bind].
  assert (Er : map p_Re (map (resampled (common_alpha af)) af) = map p_Re af) by (rewrite map_map; reflexivity).
  set (ps := map (resampled (common_alpha af)) af) in *.
  assert (Hlen : length ps = length af) by (apply map_length).
  set (z := zeros (length grid) (length (map p_Re ps))).
  assert (Eg : forall p0 l, ps = p0 :: l -> p_alpha p0 = grid).
  { intros p0 l E. unfold ps in E. destruct af; [discriminate|]. cbn [map] in E. injection E as <- _. reflexivity. }
  destruct (fill_grid_ok (length grid) (length (map p_Re ps)) ps 0 z z z) as (A & B & C & E & Sh & V).
  - rewrite map_length. lia.
  - intros N [->|[->| ->]]; split; reflexivity.
  - apply Forall_forall. intros q Hq k. unfold ps in Hq. apply in_map_iff in Hq. destruct Hq as (p & <- & _).
    rewrite resampled_col. apply map_length.
  - exists grid, (map p_Re af), A, B, C. split.
    + destruct ps as [|p0 l] eqn:Eps; [destruct af; [congruence|discriminate]|].
      rewrite (Eg p0 l eq_refl). unfold z in E. rewrite E. cbn [bind]. rewrite Er. reflexivity.
    + split; [exact I|]. split; [exact M|]. split; [reflexivity|]. split; [exact Hs|].
      rewrite map_length, Hlen in Sh, V. split; [exact Sh|]. intros i j Hi Hj.
      specialize (V i j Hj).
      replace ((0 <=? j)%nat && (j <? 0 + length af)%nat) with true in V
        by (symmetry; apply andb_true_iff; rewrite Nat.leb_le, Nat.ltb_lt; lia).
      rewrite Nat.sub_0_r in V. unfold ps in V.
      rewrite (nth_indep _ polar0 (resampled (common_alpha af) polar0)) in V by (rewrite map_length; exact Hj).
      rewrite map_nth in V. rewrite !resampled_col in V. fold grid in V.
      rewrite !(nth_map_lt _ _ _ 0) in V by exact Hi. destruct V as (-> & -> & ->).
      rewrite Forall_forall in W. assert (Wj : wf_polar (nth j af polar0)) by (apply W, nth_In; exact Hj).
      split; [|split]; apply value_ival; exact Wj.
Qed.

(** * Corollaries in the form stated *)
Lemma ok_inj {A} (x y : A) : Ok x = Ok y -> x = y.
Proof. intros H. apply (f_equal (fun r => match r with Ok a => a | Raise _ => x end)) in H. exact H. Qed.

Lemma blend_ends p q b : wf_polar p -> wf_polar q ->
  (polar_blend p q 0 = Ok b -> p_Re b = p_Re p /\
     forall k i, (i < length (p_alpha b))%nat -> value k p (nth i (p_alpha b) 0) (nth i (col k b) 0)) /\
  (polar_blend p q 1 = Ok b -> p_Re b = p_Re q /\
     forall k i, (i < length (p_alpha b))%nat -> value k q (nth i (p_alpha b) 0) (nth i (col k b) 0)).
Proof.
  intros Hp Hq. split; intros E.
  - split.
    + rewrite blend_eq in E by assumption. apply ok_inj in E. subst b. cbn [p_Re blend_val]. unfold lerp. ring.
    + intros k i Hi.
      rewrite (blend_value p q 0 b Hp Hq E k i _ _ Hi (value_ival k p _ Hp) (value_ival k q _ Hq)).
      replace ((1 - 0) * ival k p (nth i (p_alpha b) 0) + 0 * ival k q (nth i (p_alpha b) 0))
        with (ival k p (nth i (p_alpha b) 0)) by ring. apply value_ival. exact Hp.
  - split.
    + rewrite blend_eq in E by assumption. apply ok_inj in E. subst b. cbn [p_Re blend_val]. unfold lerp. ring.
    + intros k i Hi.
      rewrite (blend_value p q 1 b Hp Hq E k i _ _ Hi (value_ival k p _ Hp) (value_ival k q _ Hq)).
      replace ((1 - 1) * ival k p (nth i (p_alpha b) 0) + 1 * ival k q (nth i (p_alpha b) 0))
        with (ival k q (nth i (p_alpha b) 0)) by ring. apply value_ival. exact Hq.
Qed.

Lemma blend_between p q w b : wf_polar p -> wf_polar q -> 0 <= w <= 1 -> polar_blend p q w = Ok b ->
  forall k i y1 y2, (i < length (p_alpha b))%nat ->
  value k p (nth i (p_alpha b) 0) y1 -> value k q (nth i (p_alpha b) 0) y2 ->
  Rmin y1 y2 <= nth i (col k b) 0 <= Rmax y1 y2.
Proof.
  intros Hp Hq Hw E k i y1 y2 Hi V1 V2. rewrite (blend_value p q w b Hp Hq E k i y1 y2 Hi V1 V2).
  pose proof (Rmin_l y1 y2). pose proof (Rmin_r y1 y2). pose proof (Rmax_l y1 y2). pose proof (Rmax_r y1 y2).
  split; nra.
Qed.

Lemma airfoil_total l :
  (l = [] -> mk_airfoil l = Raise IndexError) /\
  (l <> [] -> exists af, mk_airfoil l = Ok af /\
     Permutation l af /\ sorted_by_Re af /\ (forall r, at_Re r af = at_Re r l)).
Proof.
  split; [intros ->; reflexivity|]. intros H. exists (psort l). split; [apply mk_airfoil_ok; exact H|].
  apply airfoil_sorted. apply mk_airfoil_ok. exact H.
Qed.

Lemma lookup_spec af Re : af <> [] -> sorted_by_Re af ->
  (Re <= p_Re (nth 0 af polar0) -> getPolar af Re = Ok (nth 0 af polar0)) /\
  (p_Re (nth 0 af polar0) < Re -> p_Re (nth (length af - 1) af polar0) <= Re ->
     getPolar af Re = Ok (nth (length af - 1) af polar0)) /\
  (p_Re (nth 0 af polar0) < Re < p_Re (nth (length af - 1) af polar0) ->
     exists i w, (S i < length af)%nat /\ 0 < w <= 1 /\
       p_Re (nth i af polar0) < Re <= p_Re (nth (S i) af polar0) /\
       Re = (1 - w) * p_Re (nth i af polar0) + w * p_Re (nth (S i) af polar0) /\
       getPolar af Re = polar_blend (nth i af polar0) (nth (S i) af polar0) w).
Proof.
  intros Hne Hs. rewrite <- lastp_nth. split; [|split].
  - intros H. destruct af as [|p0 l]; [congruence|]. apply getPolar_low. exact H.
  - intros H1 H2. apply getPolar_high; assumption.
  - intros [H1 H2]. apply getPolar_mid; assumption.
Qed.

Lemma lookup_Re af Re a : af <> [] -> sorted_by_Re af -> Forall wf_polar af -> Forall (fun p => covers p a) af ->
  exists p, getPolar af Re = Ok p /\ wf_polar p /\ covers p a /\
    p_Re p = clamp (p_Re (nth 0 af polar0)) (p_Re (nth (length af - 1) af polar0)) Re.
Proof. intros. rewrite <- lastp_nth. apply getPolar_ok; assumption. Qed.

Lemma clamp_inside lo hi x : lo <= x <= hi -> clamp lo hi x = x.
Proof. intros H. unfold clamp. rewrite Rmax_right by lra. apply Rmin_right. lra. Qed.

Lemma blend_common_range a1 a2 w c r : a1 <> [] -> a2 <> [] -> sorted_by_Re a1 -> sorted_by_Re a2 ->
  Forall wf_polar (a1 ++ a2) -> Forall (fun p => covers p c) (a1 ++ a2) ->
  In r (map p_Re a1) \/ In r (map p_Re a2) ->
  p_Re (nth 0 a1 polar0) <= r <= p_Re (lastp a1) -> p_Re (nth 0 a2 polar0) <= r <= p_Re (lastp a2) ->
  exists af b, airfoil_blend a1 a2 w = Ok af /\ In b af /\ p_Re b = r.
Proof.
  intros N1 N2 S1 S2 W C Hr H1 H2.
  destruct (blend_union a1 a2 w c N1 N2 S1 S2 W C) as (af & Rs & bs & E & I & M & P & S & F).
  apply M in Hr. exists af.
  assert (exists b, In b bs /\ p_Re b = r) as (b & Hb & Eb).
  { clear - F Hr H1 H2. induction F as [|x b Rs bs (p1 & p2 & _ & _ & _ & Hx) F IH]; [destruct Hr|].
    destruct Hr as [->|Hr].
    - exists b. split; [left; reflexivity|]. rewrite Hx, !clamp_inside by assumption. ring.
    - destruct (IH Hr) as (b' & ? & ?). exists b'. split; [right|]; assumption. }
  exists b. split; [exact E|]. split; [eapply Permutation_in; eauto|exact Eb].
Qed.

Lemma clamp_strict lo hi x y : lo <= hi -> x < y -> clamp lo hi x < clamp lo hi y \/ y <= lo \/ hi <= x \/ lo = hi.
Proof.
  intros Hlh H. destruct (Req_dec lo hi) as [|Hn]; [auto|]. destruct (Rle_lt_dec y lo) as [|A]; [auto|]. destruct (Rle_lt_dec hi x) as [|B]; [auto|].
  left. unfold clamp, Rmin, Rmax. repeat destruct (Rle_dec _ _); lra.
Qed.

Lemma blend_distinct a1 a2 w c : a1 <> [] -> a2 <> [] -> sorted_by_Re a1 -> sorted_by_Re a2 ->
  Forall wf_polar (a1 ++ a2) -> Forall (fun p => covers p c) (a1 ++ a2) -> 0 < w < 1 ->
  p_Re (nth 0 a1 polar0) <= p_Re (lastp a2) -> p_Re (nth 0 a2 polar0) <= p_Re (lastp a1) ->
  exists af, airfoil_blend a1 a2 w = Ok af /\ increasing (map p_Re af).
Proof.
  intros N1 N2 S1 S2 W C Hw H12 H21.
  destruct (blend_union_order a1 a2 w c N1 N2 S1 S2 W C ltac:(lra)) as (af & E & M).
  exists af. split; [exact E|]. rewrite M. intros i j Hij. rewrite map_length in Hij.
  rewrite !(nth_map_lt _ _ _ 0) by lia.
  pose proof (union1d_incr (map p_Re a1) (map p_Re a2) i j Hij) as Hlt.
  assert (R : forall k, (k < length (union1d (map p_Re a1) (map p_Re a2)))%nat ->
    p_Re (nth 0 a1 polar0) <= nth k (union1d (map p_Re a1) (map p_Re a2)) 0 <= p_Re (lastp a1) \/
    p_Re (nth 0 a2 polar0) <= nth k (union1d (map p_Re a1) (map p_Re a2)) 0 <= p_Re (lastp a2)).
  { intros k Hk. pose proof (nth_In _ 0 Hk) as I. apply union1d_in in I.
    assert (Z : forall a, a <> [] -> sorted_by_Re a -> forall r, In r (map p_Re a) ->
      p_Re (nth 0 a polar0) <= r <= p_Re (lastp a)).
    { intros a Na Sa r Hr. apply in_map_iff in Hr. destruct Hr as (p & <- & Hp).
      apply (In_nth _ _ polar0) in Hp. destruct Hp as (n & Hn & <-). rewrite lastp_nth.
      split; apply sorted_nth; auto; lia. }
    destruct I as [I|I]; [left|right]; apply Z; assumption. }
  pose proof (R i ltac:(lia)) as Ri. pose proof (R j ltac:(lia)) as Rj.
  set (x := nth i _ 0) in *. set (y := nth j _ 0) in *. clearbody x y. clear R M E.
  pose proof (sorted_nth a1 0 (length a1 - 1) S1 ltac:(destruct a1; [congruence|simpl; lia])) as L1.
  pose proof (sorted_nth a2 0 (length a2 - 1) S2 ltac:(destruct a2; [congruence|simpl; lia])) as L2.
  rewrite <- lastp_nth in L1, L2.
  pose proof (clamp_mono (p_Re (nth 0 a1 polar0)) (p_Re (lastp a1)) _ _ (Rlt_le _ _ Hlt)) as M1.
  pose proof (clamp_mono (p_Re (nth 0 a2 polar0)) (p_Re (lastp a2)) _ _ (Rlt_le _ _ Hlt)) as M2.
  destruct (clamp_strict _ _ x y L1 Hlt) as [A|A].
  - apply Rplus_lt_le_compat; [apply Rmult_lt_compat_l|apply Rmult_le_compat_l]; lra.
  - destruct (clamp_strict _ _ x y L2 Hlt) as [B|B]; [|exfalso; clear - A B Ri Rj Hlt H12 H21 L1 L2; intuition lra].
    apply Rplus_le_lt_compat; [apply Rmult_le_compat_l|apply Rmult_lt_compat_l]; lra.
Qed.

Lemma weight_zero_iff p q : wf_polar p -> wf_polar q ->
  (polar_blend p q 0 = Ok p <->
   (forall a, In a (p_alpha p) -> covers q a) /\
   (forall a, In a (p_alpha q) -> covers p a -> In a (p_alpha p))).
Proof.
  intros Hp Hq. rewrite blend_eq by assumption. split.
  - intros E. apply ok_inj in E. apply (f_equal p_alpha) in E. cbn [p_alpha blend_val] in E. split.
    + intros a Ha. rewrite <- E in Ha. apply blend_alpha_in in Ha. unfold covers. tauto.
    + intros a Ha Hc. destruct (Rlt_le_dec a (first (p_alpha q))) as [L|L].
      { pose proof (in_first_final _ _ (proj1 (proj2 Hq)) Ha). lra. }
      rewrite <- E. apply blend_alpha_in. pose proof (in_first_final _ _ (proj1 (proj2 Hq)) Ha).
      unfold covers in Hc. tauto.
  - intros [H1 H2]. f_equal. assert (E : blend_alpha p q = p_alpha p).
    { apply incr_unique; [apply blend_alpha_incr|apply Hp|]. intros a. rewrite blend_alpha_in. split.
      - intros ([Ha|Ha] & Hc & _); [exact Ha|]. apply H2; assumption.
      - intros Ha. pose proof (in_first_final _ _ (proj1 (proj2 Hp)) Ha). specialize (H1 a Ha). unfold covers in H1. tauto. }
    rewrite (polar_eta p) at 2. unfold blend_val, blend_col. rewrite E.
    assert (L : forall x y, lerp 0 x y = x) by (intros; unfold lerp; ring).
    rewrite L. rewrite <- !(ival_nodes _ p Hp). cbn [map].
    f_equal; apply map_ext; intros; apply L.
Qed.

Ltac incr_lit := apply incr_ss;
  repeat first [apply SSorted_nil | apply SSorted_cons | apply Forall_nil | apply Forall_cons]; lra.

(** Two usable polars for the examples. *)
Definition ex_p : polar := mkPolar 1 [0; 10] [0; 1] [1/100; 2/100] [0; 0].
Definition ex_q : polar := mkPolar 3 [-5; 5; 10] [-1/2; 3/2; 2] [1/100; 1/100; 3/100] [0; 0; 0].
Definition ex_r : polar := mkPolar 2 [0; 10] [0; 2] [1/100; 2/100] [0; 0].
Definition ex_s : polar := mkPolar 3 [0; 10] [0; 3] [1/100; 2/100] [0; 0].

Lemma ex_p_wf : wf_polar ex_p.
Proof. split; [discriminate|]. split; [cbn [ex_p p_alpha]; incr_lit|]. auto. Qed.
Lemma ex_q_wf : wf_polar ex_q.
Proof. split; [discriminate|]. split; [cbn [ex_q p_alpha]; incr_lit|]. auto. Qed.
Lemma ex_r_wf : wf_polar ex_r.
Proof. split; [discriminate|]. split; [cbn [ex_r p_alpha]; incr_lit|]. auto. Qed.
Lemma ex_s_wf : wf_polar ex_s.
Proof. split; [discriminate|]. split; [cbn [ex_s p_alpha]; incr_lit|]. auto. Qed.

Lemma ex_polars_ok : wf_polar ex_p /\ wf_polar ex_q /\ covers ex_p 5 /\ covers ex_q 5 /\ sorted_by_Re [ex_p; ex_q].
Proof.
  split; [apply ex_p_wf|]. split; [apply ex_q_wf|]. unfold covers, first, final, ex_p, ex_q. cbn.
  split; [lra|]. split; [lra|]. unfold sorted_by_Re. cbn [map p_Re]. intros i j H. cbn [length] in H.
  destruct j as [|[|j]]; [lia| |lia]. destruct i as [|i]; [|lia]. cbn [nth]. lra.
Qed.

Lemma ex_blend_ok : exists b, polar_blend ex_p ex_q (1/2) = Ok b /\ p_alpha b = [0; 5; 10] /\ p_Re b = 2 /\
  nth 1 (p_cl b) 0 = 1.
Proof.
  exists (blend_val ex_p ex_q (1/2)). split; [apply blend_eq; [apply ex_p_wf|apply ex_q_wf]|].
  assert (E : blend_alpha ex_p ex_q = [0; 5; 10]).
  { apply incr_unique; [apply blend_alpha_incr|incr_lit|]. intros x. rewrite blend_alpha_in.
    unfold first, final, ex_p, ex_q. cbn. split.
    - intros ([[<-|[<-|[]]]|[<-|[<-|[<-|[]]]]] & A & B); try lra; auto.
    - intros [<-|[<-|[<-|[]]]]; (split; [auto|lra]). }
  cbn [p_alpha blend_val p_Re p_cl]. unfold blend_col. rewrite E. split; [reflexivity|].
  split; [unfold lerp; cbn; lra|]. cbn [map nth].
  pose proof (value_ival CL ex_p 5 ex_p_wf) as (_ & _ & V). specialize (V 0%nat).
  assert (N : ival CL ex_q 5 = 3/2) by (apply (ival_node CL ex_q 1 ex_q_wf); cbn; lia). rewrite N.
  cbn [p_alpha ex_p length nth] in V. specialize (V ltac:(lia) ltac:(lra)). cbn [col ex_p p_cl nth] in V.
  unfold lerp. fold ex_p in *. lra.
Qed.

Lemma weight_zero_refuted :
  (exists p q b, wf_polar p /\ wf_polar q /\ (exists a, covers p a /\ covers q a) /\
     polar_blend p q 0 = Ok b /\ b <> p /\ exists a, In a (p_alpha p) /\ ~ In a (p_alpha b)) /\
  (forall p q w, wf_polar p -> wf_polar q -> (forall a, ~ (covers p a /\ covers q a)) ->
     exists b, polar_blend p q w = Ok b /\ p_alpha b = [] /\ forall k, col k b = []).
Proof.
  split.
  - exists ex_q, ex_p, (blend_val ex_q ex_p 0). split; [apply ex_q_wf|]. split; [apply ex_p_wf|].
    split; [exists 5; destruct ex_polars_ok as (_ & _ & A & B & _); split; assumption|].
    split; [apply blend_eq; [apply ex_q_wf|apply ex_p_wf]|].
    assert (N : ~ In (-5) (p_alpha (blend_val ex_q ex_p 0))).
    { cbn [p_alpha blend_val]. intros I. apply blend_alpha_in in I. destruct I as (_ & _ & A).
      unfold first, final in A. cbn in A. lra. }
    assert (I : In (-5) (p_alpha ex_q)) by (left; reflexivity).
    split; [intros E; apply N; rewrite E; exact I|]. exists (-5). split; [exact I|exact N].
  - intros p q w Hp Hq Hd. exists (blend_val p q w). split; [apply blend_eq; assumption|].
    assert (E : blend_alpha p q = []).
    { destruct (blend_alpha p q) as [|a l] eqn:E; [reflexivity|]. exfalso. apply (Hd a).
      assert (I : In a (blend_alpha p q)) by (rewrite E; left; reflexivity).
      apply blend_alpha_in in I. unfold covers. tauto. }
    split; [exact E|]. intros []; cbn [col blend_val p_cl p_cd p_cm]; unfold blend_col; rewrite E; reflexivity.
Qed.

Lemma blend_distinct_refuted : exists a1 a2 af,
  sorted_by_Re a1 /\ sorted_by_Re a2 /\ Forall wf_polar (a1 ++ a2) /\ Forall (fun p => covers p 0) (a1 ++ a2) /\
  increasing (map p_Re a1) /\ increasing (map p_Re a2) /\
  airfoil_blend a1 a2 0 = Ok af /\ length af = 3%nat /\ forall p, In p af -> p_Re p = 1.
Proof.
  assert (I1 : increasing (map p_Re [ex_p])) by (intros i j H; simpl in H; lia).
  assert (I2 : increasing (map p_Re [ex_r; ex_s])) by (cbn [map p_Re ex_r ex_s]; incr_lit).
  assert (W : Forall wf_polar ([ex_p] ++ [ex_r; ex_s])).
  { repeat constructor; try discriminate; cbn [ex_p ex_r ex_s p_alpha]; incr_lit. }
  assert (C : Forall (fun p => covers p 0) ([ex_p] ++ [ex_r; ex_s])).
  { repeat constructor; unfold first, final; cbn; lra. }
  destruct (blend_union_order [ex_p] [ex_r; ex_s] 0 0) as (af & E & M);
    [discriminate|discriminate|apply increasing_nondecreasing; exact I1|apply increasing_nondecreasing; exact I2|exact W|exact C|lra|].
  exists [ex_p], [ex_r; ex_s], af.
  split; [apply increasing_nondecreasing; exact I1|]. split; [apply increasing_nondecreasing; exact I2|].
  split; [exact W|]. split; [exact C|]. split; [exact I1|]. split; [exact I2|]. split; [exact E|].
  assert (U : union1d (map p_Re [ex_p]) (map p_Re [ex_r; ex_s]) = [1; 2; 3]).
  { apply incr_unique; [apply union1d_incr|incr_lit|]. intros x. rewrite union1d_in. simpl. tauto. }
  rewrite U in M. split; [apply (f_equal (@length R)) in M; rewrite map_length in M; exact M|].
  intros p Hp. apply (in_map p_Re) in Hp. rewrite M in Hp. cbn [map] in Hp.
  assert (K : forall r, 1 <= r -> (1 - 0) * clamp (p_Re (nth 0 [ex_p] polar0)) (p_Re (lastp [ex_p])) r +
     0 * clamp (p_Re (nth 0 [ex_r; ex_s] polar0)) (p_Re (lastp [ex_r; ex_s])) r = 1).
  { intros r Hr. unfold clamp at 1. cbn [nth p_Re ex_p lastp last].
    rewrite Rmax_right by exact Hr. rewrite Rmin_left by exact Hr. ring. }
  destruct Hp as [H|[H|[H|[]]]]; rewrite <- H; apply K; lra.
Qed.
