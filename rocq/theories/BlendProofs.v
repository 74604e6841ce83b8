(** Proofs about blending in steps (C127, C128). *)
From Coq Require Import Reals List Bool Lra Lia Permutation.
From Verif Require Import Prelim Interp Polar InterpSpec PolarSpec BlendSpec InterpProofs PolarProofs.
Import ListNotations.
Open Scope R_scope.

Lemma map_eq_in {X} (f g : X -> R) l : map f l = map g l -> forall x, In x l -> f x = g x.
Proof. induction l as [|y l IH]; cbn; [tauto|]. intros E x [->|H]; injection E; auto. Qed.

Lemma col_val k p q w : col k (blend_val p q w) = blend_col k p q w.
Proof. destruct k; reflexivity. Qed.

Lemma val_eq x y w p q w' : blend_alpha x y = blend_alpha p q -> lerp w (p_Re x) (p_Re y) = lerp w' (p_Re p) (p_Re q) ->
  (forall k c, In c (blend_alpha p q) -> lerp w (ival k x c) (ival k y c) = lerp w' (ival k p c) (ival k q c)) -> blend_val x y w = blend_val p q w'.
Proof.
  intros A B C. assert (K : forall k, blend_col k x y w = blend_col k p q w') by (intros k; unfold blend_col; rewrite A; apply map_ext_in; intros c Hc; apply C; exact Hc).
  unfold blend_val. rewrite A, B, !K. reflexivity.
Qed.

Section Pair.
Variables (p q : polar) (a : R).
Hypotheses (Hp : wf_polar p) (Hq : wf_polar q) (Cp : covers p a) (Cq : covers q a).

Lemma val_wf w : wf_polar (blend_val p q w).
Proof using Hp Hq Cp Cq. exact (proj1 (blend_val_wf p q w a Hp Hq Cp Cq)). Qed.
Lemma val_covers w c : covers (blend_val p q w) c <-> covers p c /\ covers q c.
Proof using Hp Hq Cp Cq.
  split; [|intros [A B]; exact (proj2 (blend_val_wf p q w a Hp Hq Cp Cq) c A B)]. intros [A B]. pose proof (val_wf w) as (N & I & _).
  pose proof (first_in _ N) as F. pose proof (final_in _ N) as L. cbn [p_alpha blend_val] in *. apply blend_alpha_in in F. apply blend_alpha_in in L. unfold covers. lra.
Qed.
Lemma val_ival k w c : In c (blend_alpha p q) -> ival k (blend_val p q w) c = lerp w (ival k p c) (ival k q c).
Proof using Hp Hq Cp Cq.
  intros H. pose proof (ival_nodes k _ (val_wf w)) as E. rewrite col_val in E. exact (map_eq_in _ _ _ E c H).
Qed.
Lemma val_in w c : In c (p_alpha (blend_val p q w)) -> In c (blend_alpha p q).
Proof using. exact (fun H => H). Qed.

(** The grid of any two polars between the two. *)
Lemma grid_steps u v : blend_alpha (blend_val p q u) (blend_val p q v) = blend_alpha p q.
Proof using Hp Hq Cp Cq. exact (blend_same_alpha (blend_val p q u) (blend_val p q v) (val_wf u) eq_refl). Qed.
Lemma blend_steps u v w : polar_blend (blend_val p q u) (blend_val p q v) w = polar_blend p q ((1 - w) * u + w * v).
Proof using Hp Hq Cp Cq.
  rewrite (blend_eq _ _ w (val_wf u) (val_wf v)), (blend_eq p q _ Hp Hq). f_equal.
  assert (K : forall x y, lerp w (lerp u x y) (lerp v x y) = lerp ((1 - w) * u + w * v) x y) by (intros; unfold lerp; ring).
  apply val_eq; [apply grid_steps|apply K|]. intros k c Hc. rewrite !val_ival by exact Hc. apply K.
Qed.
Lemma grid_toward u : blend_alpha (blend_val p q u) q = blend_alpha p q.
Proof using Hp Hq Cp Cq.
  apply incr_unique; try apply blend_alpha_incr. intros x. rewrite !blend_alpha_in. cbn [p_alpha blend_val].
  pose proof (val_covers u x) as V. unfold covers in V. cbn [p_alpha blend_val] in V. rewrite V, blend_alpha_in. tauto.
Qed.
Lemma blend_toward u w : polar_blend (blend_val p q u) q w = polar_blend p q (1 - (1 - u) * (1 - w)).
Proof using Hp Hq Cp Cq.
  rewrite (blend_eq _ _ w (val_wf u) Hq), (blend_eq p q _ Hp Hq). f_equal.
  assert (K : forall x y, lerp w (lerp u x y) y = lerp (1 - (1 - u) * (1 - w)) x y) by (intros; unfold lerp; ring).
  apply val_eq; [apply grid_toward|apply K|]. intros k c Hc. rewrite !val_ival by exact Hc. apply K.
Qed.
End Pair.

Lemma blend_from p q a u w : wf_polar p -> wf_polar q -> covers p a -> covers q a -> polar_blend p (blend_val p q u) w = polar_blend p q (u * w).
Proof.
  intros Hp Hq Cp Cq. pose proof (blend_swap q p (1 - u) Hq Hp) as E. replace (1 - (1 - u)) with u in E by ring.
  rewrite (blend_eq p q u Hp Hq), (blend_eq q p (1 - u) Hq Hp) in E. apply ok_inj in E. rewrite E.
  rewrite <- (blend_swap p (blend_val q p (1 - u)) w) by (try assumption; exact (val_wf q p a Hq Hp Cq Cp (1 - u))).
  rewrite (blend_toward q p a Hq Hp Cq Cp). rewrite <- (blend_swap p q (u * w)) by assumption. f_equal. ring.
Qed.

(** ** Airfoils *)
Lemma mapM_ext_in {X Y} (f g : X -> res Y) l : (forall x, In x l -> f x = g x) -> mapM f l = mapM g l.
Proof. induction l as [|x l IH]; intros H; [reflexivity|]. cbn [mapM]. rewrite (H x (or_introl eq_refl)), IH by (intros; apply H; right; assumption). reflexivity. Qed.
Lemma union1d_swap a b : union1d a b = union1d b a.
Proof. apply incr_unique; try apply union1d_incr. intros x. rewrite !union1d_in. tauto. Qed.

Lemma airfoil_swap a1 a2 w c : a1 <> [] -> a2 <> [] -> sorted_by_Re a1 -> sorted_by_Re a2 ->
  Forall wf_polar (a1 ++ a2) -> Forall (fun p => covers p c) (a1 ++ a2) -> airfoil_blend a2 a1 (1 - w) = airfoil_blend a1 a2 w.
Proof.
  intros N1 N2 S1 S2 W C. apply Forall_app in W. destruct W as [W1 W2]. apply Forall_app in C. destruct C as [C1 C2].
  unfold airfoil_blend. rewrite (union1d_swap (map p_Re a2)).
  rewrite (mapM_ext_in (fun Re => do p1 <- getPolar a2 Re; do p2 <- getPolar a1 Re; polar_blend p1 p2 (1 - w)) (fun Re => do p1 <- getPolar a1 Re; do p2 <- getPolar a2 Re; polar_blend p1 p2 w)); [reflexivity|].
  intros r _. destruct (getPolar_ok a1 r c N1 S1 W1 C1) as (p1 & E1 & V1 & _). destruct (getPolar_ok a2 r c N2 S2 W2 C2) as (p2 & E2 & V2 & _).
  rewrite E1, E2. cbn [bind]. apply blend_swap; assumption.
Qed.

(** Same distinct Reynolds numbers, one grid per airfoil: the blend is the list of the blends. *)
Definition blend_list (a1 a2 : list polar) (w : R) : list polar := map (fun x => blend_val (fst x) (snd x) w) (combine a1 a2).

Lemma distinct_nth af : increasing (map p_Re af) -> forall j k, (j < k < length af)%nat -> p_Re (nth j af polar0) <> p_Re (nth k af polar0).
Proof.
  intros H j k Hjk E. assert (L : nth j (map p_Re af) 0 < nth k (map p_Re af) 0) by (apply H; rewrite map_length; lia).
  rewrite !(nth_map_lt p_Re af _ polar0) in L by lia. lra.
Qed.
Lemma increasing_sorted af : increasing (map p_Re af) -> sorted_by_Re af.
Proof. intros H. apply increasing_nondecreasing. exact H. Qed.
Lemma stored af : increasing (map p_Re af) -> Forall wf_polar af -> one_grid af -> forall i, (i < length af)%nat -> getPolar af (p_Re (nth i af polar0)) = Ok (nth i af polar0).
Proof. intros H W G i Hi. apply getPolar_stored; [apply increasing_sorted; exact H|exact W|exact G|apply distinct_nth; exact H|exact Hi]. Qed.

Lemma mapM_nth {Y} (f : R -> res Y) (g : nat -> Y) (l : list R) : (forall i, (i < length l)%nat -> f (nth i l 0) = Ok (g i)) -> mapM f l = Ok (map g (seq 0 (length l))).
Proof.
  revert g. induction l as [|x l IH]; intros g H; [reflexivity|]. cbn [mapM length seq map]. pose proof (H 0%nat ltac:(cbn; lia)) as H0. cbn [nth] in H0. rewrite H0. cbn [bind].
  rewrite (IH (fun i => g (S i))) by (intros i Hi; apply (H (S i)); cbn; lia). cbn [bind]. rewrite <- seq_shift, map_map. reflexivity.
Qed.
Lemma psort_increasing l : increasing (map p_Re l) -> psort l = l.
Proof. intros H. apply psort_id, increasing_sorted, H. Qed.

Lemma nth_blend_list a1 a2 w i : length a1 = length a2 -> (i < length a1)%nat -> nth i (blend_list a1 a2 w) polar0 = blend_val (nth i a1 polar0) (nth i a2 polar0) w.
Proof.
  intros HL Hi. unfold blend_list. rewrite (nth_indep _ polar0 (blend_val (fst (polar0, polar0)) (snd (polar0, polar0)) w)) by (rewrite map_length, combine_length; lia).
  rewrite (map_nth (fun x => blend_val (fst x) (snd x) w)), combine_nth by exact HL. reflexivity.
Qed.
Lemma length_blend_list a1 a2 w : length a1 = length a2 -> length (blend_list a1 a2 w) = length a1.
Proof. intros HL. unfold blend_list. rewrite map_length, combine_length. lia. Qed.

Lemma blend_same_Re a1 a2 w : a1 <> [] -> map p_Re a1 = map p_Re a2 -> increasing (map p_Re a1) -> Forall wf_polar (a1 ++ a2) -> one_grid a1 -> one_grid a2 ->
  airfoil_blend a1 a2 w = Ok (blend_list a1 a2 w) /\ map p_Re (blend_list a1 a2 w) = map p_Re a1.
Proof.
  intros N E I W G1 G2. apply Forall_app in W. destruct W as [W1 W2].
  assert (HL : length a1 = length a2) by (rewrite <- (map_length p_Re a1), <- (map_length p_Re a2), E; reflexivity).
  assert (RE : map p_Re (blend_list a1 a2 w) = map p_Re a1).
  { apply (nth_ext _ _ 0 0); [rewrite !map_length; apply length_blend_list; exact HL|]. rewrite map_length, length_blend_list by exact HL. intros i Hi.
    rewrite (nth_map_lt p_Re _ i polar0) by (rewrite length_blend_list by exact HL; exact Hi). rewrite nth_blend_list by assumption. cbn [p_Re blend_val].
    pose proof (f_equal (fun l => nth i l 0) E) as Ei. cbv beta in Ei. rewrite !(nth_map_lt p_Re _ i polar0) in Ei by lia. rewrite <- Ei. rewrite (nth_map_lt p_Re _ i polar0) by exact Hi. unfold lerp. ring. }
  split; [|exact RE]. unfold airfoil_blend. rewrite <- E.
  replace (union1d (map p_Re a1) (map p_Re a1)) with (map p_Re a1) by (symmetry; apply union1d_self; exact I).
  rewrite (mapM_nth _ (fun i => nth i (blend_list a1 a2 w) polar0)).
  - cbn [bind]. rewrite map_length. rewrite <- (length_blend_list a1 a2 w HL) at 1.
    assert (M : forall l : list polar, map (fun i => nth i l polar0) (seq 0 (length l)) = l).
    { intros l. apply (nth_ext _ _ polar0 polar0); [rewrite map_length, seq_length; reflexivity|]. rewrite map_length, seq_length. intros i Hi.
      rewrite (nth_indep _ polar0 (nth 0 l polar0)) by (rewrite map_length, seq_length; exact Hi). rewrite (map_nth (fun i => nth i l polar0)), seq_nth by exact Hi. reflexivity. }
    rewrite M. rewrite mk_airfoil_ok by (intros Z; apply N; apply (f_equal (@length _)) in Z; rewrite length_blend_list in Z by exact HL; destruct a1; [reflexivity|discriminate Z]).
    rewrite psort_increasing by (rewrite RE; exact I). reflexivity.
  - rewrite map_length. intros i Hi. rewrite (nth_map_lt p_Re _ i polar0) by exact Hi.
    rewrite (stored a1 I W1 G1 i Hi). cbn [bind].
    pose proof (f_equal (fun l => nth i l 0) E) as Ei. cbv beta in Ei. rewrite !(nth_map_lt p_Re _ i polar0) in Ei by lia. rewrite Ei.
    rewrite (stored a2 ltac:(rewrite <- E; exact I) W2 G2 i ltac:(lia)). cbn [bind]. rewrite nth_blend_list by assumption.
    apply blend_eq; [exact (proj1 (Forall_forall _ _) W1 _ (nth_In _ _ Hi))|exact (proj1 (Forall_forall _ _) W2 _ (nth_In _ polar0 (eq_ind _ (fun n => (i < n)%nat) Hi _ HL)))].
Qed.

Lemma in_combine_nth {X Y} (l : list X) (m : list Y) x y : In (x, y) (combine l m) -> In x l /\ In y m.
Proof. intros H. split; [eapply in_combine_l|eapply in_combine_r]; exact H. Qed.

Lemma airfoil_steps a1 a2 b c u w : a1 <> [] -> map p_Re a1 = map p_Re a2 -> increasing (map p_Re a1) -> Forall wf_polar (a1 ++ a2) -> Forall (fun p => covers p c) (a1 ++ a2) ->
  one_grid a1 -> one_grid a2 -> airfoil_blend a1 a2 u = Ok b ->
  airfoil_blend b a2 w = airfoil_blend a1 a2 (1 - (1 - u) * (1 - w)) /\ airfoil_blend a1 b w = airfoil_blend a1 a2 (u * w).
Proof.
  intros N E I W C G1 G2 EB. pose proof (blend_same_Re a1 a2 u N E I W G1 G2) as [B RB]. rewrite B in EB. apply ok_inj in EB. subst b.
  assert (HL : length a1 = length a2) by (rewrite <- (map_length p_Re a1), <- (map_length p_Re a2), E; reflexivity).
  set (b := blend_list a1 a2 u) in *.
  assert (INB : forall x, In x b -> exists p q, In p a1 /\ In q a2 /\ x = blend_val p q u).
  { intros x Hx. apply in_map_iff in Hx. destruct Hx as ((p & q) & <- & Hx). apply in_combine_nth in Hx. exists p, q. cbn [fst snd]. tauto. }
  apply Forall_app in W. destruct W as [W1 W2]. apply Forall_app in C. destruct C as [C1 C2].
  assert (WB : Forall wf_polar b).
  { apply Forall_forall. intros x Hx. destruct (INB x Hx) as (p & q & H1 & H2 & ->). rewrite Forall_forall in W1, W2, C1, C2. apply (val_wf p q c); auto. }
  assert (GB : one_grid b).
  { intros x y Hx Hy. destruct (INB x Hx) as (p & q & H1 & H2 & ->), (INB y Hy) as (p' & q' & H1' & H2' & ->). cbn [p_alpha blend_val]. unfold blend_alpha.
    rewrite (G1 p p' H1 H1'), (G2 q q' H2 H2'). reflexivity. }
  assert (NB : b <> []) by (intros Z; apply N; apply (f_equal (@length _)) in Z; unfold b in Z; rewrite length_blend_list in Z by exact HL; destruct a1; [reflexivity|discriminate Z]).
  assert (LB : length b = length a1) by (apply length_blend_list; exact HL).
  assert (IN : forall i, (i < length a1)%nat -> (wf_polar (nth i a1 polar0) /\ covers (nth i a1 polar0) c) /\ wf_polar (nth i a2 polar0) /\ covers (nth i a2 polar0) c).
  { intros i Hi. rewrite Forall_forall in W1, W2, C1, C2. assert (In (nth i a1 polar0) a1) by (apply nth_In; lia). assert (In (nth i a2 polar0) a2) by (apply nth_In; lia). auto. }
  assert (IB : increasing (map p_Re b)) by (rewrite RB; exact I).
  assert (WA : Forall wf_polar (a1 ++ a2)) by (apply Forall_app; auto).
  split.
  - rewrite (proj1 (blend_same_Re b a2 w NB ltac:(congruence) IB ltac:(apply Forall_app; auto) GB G2)), (proj1 (blend_same_Re a1 a2 _ N E I WA G1 G2)). f_equal.
    apply (nth_ext _ _ polar0 polar0); [rewrite !length_blend_list by congruence; exact LB|]. rewrite length_blend_list by congruence. intros i Hi. rewrite LB in Hi.
    rewrite !nth_blend_list by congruence. unfold b. rewrite nth_blend_list by assumption. destruct (IN i Hi) as ((P1 & P2) & P3 & P4).
    pose proof (blend_toward _ _ c P1 P3 P2 P4 u w) as T. rewrite !blend_eq in T by (try assumption; apply (val_wf _ _ c); assumption). apply ok_inj in T. exact T.
  - rewrite (proj1 (blend_same_Re a1 b w N ltac:(congruence) I ltac:(apply Forall_app; auto) G1 GB)), (proj1 (blend_same_Re a1 a2 _ N E I WA G1 G2)). f_equal.
    apply (nth_ext _ _ polar0 polar0); [rewrite !length_blend_list by congruence; reflexivity|]. rewrite length_blend_list by congruence. intros i Hi.
    rewrite !nth_blend_list by congruence. unfold b. rewrite nth_blend_list by assumption. destruct (IN i Hi) as ((P1 & P2) & P3 & P4).
    pose proof (blend_from _ _ c u w P1 P3 P2 P4) as T. rewrite !blend_eq in T by (try assumption; apply (val_wf _ _ c); assumption). apply ok_inj in T. exact T.
Qed.

(** ** Airfoils given at different Reynolds numbers: a case *)
Definition s_polar (Re : R) : polar := mkPolar Re [0; 1] [0; Re] [1; 1] [0; 0].
Definition s_one : list polar := [s_polar 1; s_polar 3].
Definition s_two : list polar := [s_polar 2; s_polar 4].

Lemma s_wf Re : wf_polar (s_polar Re).
Proof. split; [discriminate|]. split; [|auto]. apply increasing_cons; [intros i j H; cbn in H; lia|right; cbn; lra]. Qed.
Lemma s_covers Re : covers (s_polar Re) 0.
Proof. unfold covers, first, final. cbn. lra. Qed.
Lemma incr2 x y : x < y -> increasing [x; y].
Proof. intros H. apply increasing_cons; [intros i j K; cbn in K; lia|right; exact H]. Qed.

Lemma Forall2_len {X Y} (P : X -> Y -> Prop) l m : Forall2 P l m -> length l = length m.
Proof. induction 1; cbn; congruence. Qed.
Lemma s_length a1 a2 w c af Rs : a1 <> [] -> a2 <> [] -> sorted_by_Re a1 -> sorted_by_Re a2 -> Forall wf_polar (a1 ++ a2) -> Forall (fun p => covers p c) (a1 ++ a2) ->
  airfoil_blend a1 a2 w = Ok af -> increasing Rs -> (forall r, In r Rs <-> In r (map p_Re a1) \/ In r (map p_Re a2)) ->
  length af = length Rs /\ Forall wf_polar af /\ Forall (fun p => covers p c) af /\ sorted_by_Re af /\
  Permutation (map (fun r => (1 - w) * clamp (p_Re (nth 0 a1 polar0)) (p_Re (lastp a1)) r + w * clamp (p_Re (nth 0 a2 polar0)) (p_Re (lastp a2)) r) Rs) (map p_Re af).
Proof.
  intros N1 N2 S1 S2 W C E I HI. destruct (blend_union a1 a2 w c N1 N2 S1 S2 W C) as (af' & Rs' & bs & E' & I' & HI' & P & SO & F). rewrite E in E'. apply ok_inj in E'. subst af'.
  assert (Rs' = Rs) by (apply incr_unique; [assumption|assumption|]; intros x; rewrite HI, HI'; tauto). subst Rs'.
  apply Forall_app in W. destruct W as [W1 W2]. apply Forall_app in C. destruct C as [C1 C2].
  assert (WF : Forall (fun b => wf_polar b /\ covers b c) bs).
  { clear -F N1 N2 S1 S2 W1 W2 C1 C2. induction F as [|r b Rs bs (p1 & p2 & G1 & G2 & B & _) F IH]; [constructor|]. constructor; [|exact IH].
    destruct (getPolar_ok a1 r c N1 S1 W1 C1) as (x1 & E1 & V1 & K1 & _). destruct (getPolar_ok a2 r c N2 S2 W2 C2) as (x2 & E2 & V2 & K2 & _).
    rewrite E1 in G1. rewrite E2 in G2. apply ok_inj in G1. apply ok_inj in G2. subst. rewrite (blend_eq p1 p2 w V1 V2) in B. apply ok_inj in B. subst b.
    split; [exact (val_wf _ _ c V1 V2 K1 K2 w)|apply (val_covers _ _ c V1 V2 K1 K2); split; assumption]. }
  assert (M : map (fun r => (1 - w) * clamp (p_Re (nth 0 a1 polar0)) (p_Re (lastp a1)) r + w * clamp (p_Re (nth 0 a2 polar0)) (p_Re (lastp a2)) r) Rs = map p_Re bs).
  { clear -F. induction F as [|r b Rs bs (p1 & p2 & _ & _ & _ & E) F IH]; [reflexivity|]. cbn [map]. rewrite E, IH. reflexivity. }
  split; [rewrite (Forall2_len _ _ _ F); apply Permutation_length, Permutation_sym, P|].
  split; [eapply Permutation_Forall; [exact P|]; eapply Forall_impl; [|exact WF]; intros x [A _]; exact A|].
  split; [eapply Permutation_Forall; [exact P|]; eapply Forall_impl; [|exact WF]; intros x [_ A]; exact A|].
  split; [exact SO|]. rewrite M. apply Permutation_map, P.
Qed.

Lemma s_max a b : Rmax a b = if Rle_dec a b then b else a.
Proof. reflexivity. Qed.
Lemma s_min a b : Rmin a b = if Rle_dec a b then a else b.
Proof. reflexivity. Qed.
Lemma s_refutes : ~ airfoil_steps_always.
Proof.
  intros H. assert (W : Forall wf_polar (s_one ++ s_two)) by (cbn [app s_one s_two]; repeat (apply Forall_cons; [apply s_wf|]); apply Forall_nil).
  assert (C : Forall (fun p => covers p 0) (s_one ++ s_two)) by (cbn [app s_one s_two]; repeat (apply Forall_cons; [apply s_covers|]); apply Forall_nil).
  assert (N1 : s_one <> []) by discriminate. assert (N2 : s_two <> []) by discriminate.
  assert (I1 : increasing (map p_Re s_one)) by (apply incr2; cbn; lra). assert (I2 : increasing (map p_Re s_two)) by (apply incr2; cbn; lra).
  pose proof (increasing_sorted _ I1) as S1. pose proof (increasing_sorted _ I2) as S2.
  destruct (blend_union s_one s_two (1/2) 0 N1 N2 S1 S2 W C) as (b & _ & _ & E & _).
  specialize (H s_one s_two b (1/2) (1/2) 0 N1 N2 I1 I2 W C ltac:(intros p q Hp Hq; cbn in Hp, Hq; intuition subst; reflexivity) ltac:(lra) ltac:(lra) E).
  assert (I4 : increasing [1; 2; 3; 4]) by (apply increasing_cons; [|right; cbn; lra]; apply increasing_cons; [|right; cbn; lra]; apply incr2; lra).
  assert (M4 : forall r, In r [1; 2; 3; 4] <-> In r (map p_Re s_one) \/ In r (map p_Re s_two)) by (intros r; cbn; tauto).
  destruct (s_length _ _ _ 0 b [1; 2; 3; 4] N1 N2 S1 S2 W C E I4 M4) as (L1 & Wb & Cb & Sb & P).
  assert (Nb : b <> []) by (intros ->; discriminate L1).
  assert (W' : Forall wf_polar (b ++ s_two)) by (apply Forall_app; split; [assumption|repeat (apply Forall_cons; [apply s_wf|]); apply Forall_nil]).
  assert (C' : Forall (fun p => covers p 0) (b ++ s_two)) by (apply Forall_app; split; [assumption|repeat (apply Forall_cons; [apply s_covers|]); apply Forall_nil]).
  destruct (blend_union b s_two (1/2) 0 Nb N2 Sb S2 W' C') as (d & _ & _ & E' & _).
  assert (I5 : increasing [3/2; 2; 3; 7/2; 4]) by (apply increasing_cons; [|right; cbn; lra]; apply increasing_cons; [|right; cbn; lra]; apply increasing_cons; [|right; cbn; lra]; apply incr2; lra).
  assert (M5 : forall r, In r [3/2; 2; 3; 7/2; 4] <-> In r (map p_Re b) \/ In r (map p_Re s_two)).
  { intros r. assert (PI : In r (map p_Re b) <-> In r [3/2; 2; 3; 7/2]).
    { assert (Q : map (fun r => (1 - 1/2) * clamp (p_Re (nth 0 s_one polar0)) (p_Re (lastp s_one)) r + 1/2 * clamp (p_Re (nth 0 s_two polar0)) (p_Re (lastp s_two)) r) [1; 2; 3; 4] = [3/2; 2; 3; 7/2]).
      { cbn. unfold clamp. rewrite !s_max, !s_min. repeat (destruct (Rle_dec _ _); [|try (exfalso; lra)]; try (exfalso; lra)). repeat (apply (f_equal2 cons); [lra|]); reflexivity. }
      rewrite Q in P. split; apply Permutation_in; [apply Permutation_sym, P|exact P]. }
    rewrite PI. cbn. tauto. }
  destruct (s_length _ _ _ 0 d _ Nb N2 Sb S2 W' C' E' I5 M5) as (L2 & _).
  rewrite E' in H. symmetry in H. destruct (s_length _ _ _ 0 d _ N1 N2 S1 S2 W C H I4 M4) as (L3 & _). rewrite L2 in L3. discriminate.
Qed.

(** ** No common angle *)
Lemma blend_apart p q u w b : wf_polar p -> wf_polar q -> (forall a, ~ (covers p a /\ covers q a)) -> polar_blend p q u = Ok b ->
  p_alpha b = [] /\ polar_blend b q w = Raise ValueError /\ polar_blend p b w = Raise ValueError.
Proof.
  intros Hp Hq N E. destruct (proj2 weight_zero_refuted p q u Hp Hq N) as (b' & E' & A & _). rewrite E in E'. apply ok_inj in E'. subst b'.
  split; [exact A|]. destruct Hp as (Np & _). unfold polar_blend. rewrite A. destruct (p_alpha p) as [|x l]; [congruence|]. split; reflexivity.
Qed.

Definition t_polar (Re : R) : polar := mkPolar Re [0; 10] [0; Re] [1; 1] [0; 0].
Definition t_polar' (Re : R) : polar := mkPolar Re [0; 5; 20] [0; Re; 2] [1; 1; 1] [0; 0; 0].
Lemma steps_example : exists a1 a2 b, length a1 = 2%nat /\ a1 <> [] /\ map p_Re a1 = map p_Re a2 /\ increasing (map p_Re a1) /\
  Forall wf_polar (a1 ++ a2) /\ Forall (fun p => covers p 5) (a1 ++ a2) /\ one_grid a1 /\ one_grid a2 /\ ~ one_grid (a1 ++ a2) /\
  airfoil_blend a1 a2 (1/2) = Ok b /\ length b = 2%nat.
Proof.
  assert (WA : forall r, wf_polar (t_polar r)) by (intros r; split; [discriminate|]; split; [apply incr2; lra|auto]).
  assert (WB : forall r, wf_polar (t_polar' r)) by (intros r; split; [discriminate|]; split; [apply increasing_cons; [apply incr2; lra|right; cbn; lra]|auto]).
  assert (CA : forall r, covers (t_polar r) 5) by (intros r; unfold covers, first, final; cbn; lra).
  assert (CB : forall r, covers (t_polar' r) 5) by (intros r; unfold covers, first, final; cbn; lra).
  set (a1 := [t_polar 1; t_polar 3]). set (a2 := [t_polar' 1; t_polar' 3]).
  assert (N1 : a1 <> []) by discriminate. assert (E : map p_Re a1 = map p_Re a2) by reflexivity. assert (I : increasing (map p_Re a1)) by (apply incr2; cbn; lra).
  assert (W : Forall wf_polar (a1 ++ a2)) by (unfold a1, a2; cbn [app]; auto 10).
  assert (C : Forall (fun p => covers p 5) (a1 ++ a2)) by (unfold a1, a2; cbn [app]; auto 10).
  assert (G1 : one_grid a1) by (intros p q Hp Hq; cbn in Hp, Hq; intuition subst; reflexivity).
  assert (G2 : one_grid a2) by (intros p q Hp Hq; cbn in Hp, Hq; intuition subst; reflexivity).
  exists a1, a2, (blend_list a1 a2 (1/2)). repeat (split; [assumption || reflexivity|]).
  split; [intros G; specialize (G (t_polar 1) (t_polar' 1) ltac:(cbn; auto) ltac:(cbn; auto)); discriminate G|].
  split; [exact (proj1 (blend_same_Re a1 a2 (1/2) N1 E I W G1 G2))|reflexivity].
Qed.
