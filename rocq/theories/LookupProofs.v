(** Proofs about looking up polars by Reynolds number (C131, C132). *)
From Coq Require Import Reals List Bool Lra Lia.
From Verif Require Import Prelim Interp Polar InterpSpec PolarSpec BlendSpec LookupSpec InterpProofs PolarProofs BlendProofs.
Import ListNotations.
Open Scope R_scope.

(** ** Interpolation as a linear operator *)
Lemma interp_lin x xp f g h s t : increasing xp -> xp <> [] -> length xp = length f -> length xp = length g -> length xp = length h ->
  (forall i, (i < length xp)%nat -> nth i h 0 = s * nth i f 0 + t * nth i g 0) -> Interp.interp x xp h = s * Interp.interp x xp f + t * Interp.interp x xp g.
Proof.
  intros I N Lf Lg Lh E. assert (P : (0 < length xp)%nat) by (destruct xp; [congruence|cbn; lia]).
  apply (polygon_unique xp h x _ _ I N); [apply interp_polygon; assumption|].
  destruct (interp_polygon x xp f I Lf N) as (A1 & A2 & A3). destruct (interp_polygon x xp g I Lg N) as (B1 & B2 & B3).
  split; [|split].
  - intros H. rewrite (A1 H), (B1 H), E by lia. reflexivity.
  - intros H. rewrite (A2 H), (B2 H), E by lia. reflexivity.
  - intros i Hi H. rewrite !E by lia. specialize (A3 i Hi H). specialize (B3 i Hi H).
    transitivity (s * ((interp x xp f - nth i f 0) * (nth (S i) xp 0 - nth i xp 0)) + t * ((interp x xp g - nth i g 0) * (nth (S i) xp 0 - nth i xp 0))); [ring|]. rewrite A3, B3. ring.
Qed.
Lemma interp_self x xp : increasing xp -> xp <> [] -> forall y, x <= y -> 0 <= interp y xp xp - interp x xp xp <= y - x.
Proof.
  intros I N y H. assert (P : (0 < length xp)%nat) by (destruct xp; [congruence|cbn; lia]).
  assert (C : forall z, interp z xp xp = Rmax (nth 0 xp 0) (Rmin (nth (length xp - 1) xp 0) z)).
  { intros z. pose proof (increasing_le xp 0 (length xp - 1) I ltac:(lia)) as F.
    apply (polygon_unique xp xp z _ _ I N); [apply interp_polygon; auto|]. split; [|split].
    - intros K. rewrite Rmin_right by lra. apply Rmax_left. exact K.
    - intros K. rewrite Rmin_left by lra. apply Rmax_right. exact F.
    - intros i Hi [K1 K2]. pose proof (increasing_le xp 0 i I ltac:(lia)). pose proof (increasing_le xp (S i) (length xp - 1) I ltac:(lia)).
      rewrite Rmin_right by lra. rewrite Rmax_right by lra. ring. }
  rewrite !C. unfold Rmax, Rmin. repeat destruct (Rle_dec _ _); lra.
Qed.
Lemma interp_lipschitz xp f L x y : increasing xp -> xp <> [] -> length xp = length f -> slopes_at_most L xp f -> 0 <= L -> Rabs (interp y xp f - interp x xp f) <= L * Rabs (y - x).
Proof.
  intros I N Lf S HL.
  assert (M : forall s, s = 1 \/ s = -1 -> nondecreasing (map (fun i => L * nth i xp 0 + s * nth i f 0) (seq 0 (length xp)))).
  { intros s Hs. assert (K : forall j i, (i + j < length xp)%nat -> L * nth i xp 0 + s * nth i f 0 <= L * nth (i + j) xp 0 + s * nth (i + j) f 0).
    { induction j as [|j IH]; intros i Hi; [rewrite Nat.add_0_r; lra|]. specialize (IH i ltac:(lia)). specialize (S (i + j)%nat ltac:(lia)). rewrite Nat.add_succ_r.
      apply Rabs_def2b in S || (pose proof (Rle_abs (nth (Datatypes.S (i + j)) f 0 - nth (i + j) f 0)); pose proof (Rle_abs (- (nth (Datatypes.S (i + j)) f 0 - nth (i + j) f 0))); rewrite Rabs_Ropp in *).
      destruct Hs; subst s; lra. }
    intros i j Hij. rewrite map_length, seq_length in Hij. rewrite !(nth_map_lt _ _ _ 0%nat) by (rewrite seq_length; lia). rewrite !seq_nth by lia. cbn [plus].
    replace j with (i + (j - i))%nat by lia. apply K. lia. }
  assert (Q : forall s, s = 1 \/ s = -1 -> forall x y, x <= y -> s * (interp x xp f - interp y xp f) <= L * (y - x)).
  { intros s Hs u v Huv. specialize (M s Hs). set (h := map _ _) in M. assert (Lh : length xp = length h) by (unfold h; rewrite map_length, seq_length; reflexivity).
    assert (E : forall z, interp z xp h = L * interp z xp xp + s * interp z xp f).
    { intros z. apply interp_lin; auto. intros i Hi. unfold h. rewrite (nth_map_lt _ _ _ 0%nat) by (rewrite seq_length; lia). rewrite seq_nth by lia. reflexivity. }
    pose proof (interp_monotone u v xp h I Lh N M Huv) as K. rewrite !E in K. pose proof (interp_self u xp I N v Huv). nra. }
  destruct (Rle_lt_dec x y) as [H|H].
  - rewrite (Rabs_right (y - x)) by lra. pose proof (Q 1 ltac:(auto) x y H). pose proof (Q (-1) ltac:(auto) x y H). apply Rabs_le. lra.
  - rewrite (Rabs_left (y - x)) by lra. pose proof (Q 1 ltac:(auto) y x ltac:(lra)). pose proof (Q (-1) ltac:(auto) y x ltac:(lra)). apply Rabs_le. lra.
Qed.

(** ** Polars on one grid *)
Lemma blend_any k p q w a : wf_polar p -> wf_polar q -> p_alpha q = p_alpha p -> ival k (blend_val p q w) a = lerp w (ival k p a) (ival k q a).
Proof.
  intros Hp Hq E. unfold ival at 1. cbn [p_alpha blend_val]. rewrite (blend_same_alpha p q Hp E). rewrite col_val.
  unfold ival. rewrite E. unfold lerp. pose proof (proj1 Hp) as N. pose proof (proj1 (proj2 Hp)) as I.
  transitivity ((1 - w) * interp a (p_alpha p) (col k p) + w * interp a (p_alpha p) (col k q)); [|ring].
  apply interp_lin; auto.
  - apply wf_col. exact Hp.
  - rewrite <- E. apply wf_col. exact Hq.
  - unfold blend_col. rewrite map_length, (blend_same_alpha p q Hp E). reflexivity.
  - intros i Hi. unfold blend_col. rewrite (blend_same_alpha p q Hp E). rewrite (nth_map_lt _ _ _ 0) by exact Hi. rewrite (ival_node k p i Hp Hi).
    rewrite <- E at 1. rewrite (ival_node k q i Hq) by (rewrite E; exact Hi). unfold lerp. ring.
Qed.

Lemma lookup_linear af r : af <> [] -> increasing (map p_Re af) -> Forall wf_polar af -> one_grid af ->
  exists p, getPolar af r = Ok p /\ wf_polar p /\ p_alpha p = p_alpha (nth 0 af polar0) /\ forall k a, ival k p a = interp r (map p_Re af) (map (fun q => ival k q a) af).
Proof.
  intros N I W G. rewrite Forall_forall in W. assert (P : (0 < length af)%nat) by (destruct af; [congruence|cbn; lia]).
  assert (NR : map p_Re af <> []) by (destruct af; [congruence|discriminate]).
  assert (LL : forall k a, length (map p_Re af) = length (map (fun q => ival k q a) af)) by (intros; rewrite !map_length; reflexivity).
  assert (IN : forall i, (i < length af)%nat -> In (nth i af polar0) af) by (intros; apply nth_In; assumption).
  assert (NY : forall k a i, (i < length af)%nat -> nth i (map (fun q => ival k q a) af) 0 = ival k (nth i af polar0) a) by (intros; refine (nth_map_lt _ af _ polar0 _); assumption).
  assert (NX : forall i, (i < length af)%nat -> nth i (map p_Re af) 0 = p_Re (nth i af polar0)) by (intros; refine (nth_map_lt _ af _ polar0 _); assumption).
  destruct (lookup_spec af r N (increasing_sorted af I)) as (A & B & C).
  destruct (Rle_lt_dec r (p_Re (nth 0 af polar0))) as [H|H].
  { exists (nth 0 af polar0). split; [exact (A H)|]. split; [apply W, IN; lia|]. split; [reflexivity|]. intros k a.
    destruct (interp_clamped r _ _ I (LL k a) NR) as [Q _]. rewrite Q; rewrite ?NX, ?NY by lia; [reflexivity|exact H]. }
  destruct (Rle_lt_dec (p_Re (nth (length af - 1) af polar0)) r) as [H2|H2].
  { exists (nth (length af - 1) af polar0). split; [exact (B H H2)|]. split; [apply W, IN; lia|]. split; [apply G; apply IN; lia|]. intros k a.
    destruct (interp_clamped r _ _ I (LL k a) NR) as [_ Q]. rewrite map_length in Q. rewrite Q; rewrite ?NX, ?NY by lia; [reflexivity|exact H2]. }
  destruct (C (conj H H2)) as (i & w & Hi & Hw & [K1 K2] & Er & E). set (p := nth i af polar0) in *. set (q := nth (S i) af polar0) in *.
  assert (Wp : wf_polar p) by (apply W, IN; lia). assert (Wq : wf_polar q) by (apply W, IN; lia). assert (EA : p_alpha q = p_alpha p) by (apply G; apply IN; lia).
  assert (Cv : covers p (nth 0 (p_alpha p) 0)) by (split; [right; reflexivity|apply (increasing_le (p_alpha p) 0 (length (p_alpha p) - 1)); [apply Wp|pose proof (proj1 Wp); destruct (p_alpha p); [congruence|cbn; lia]]]).
  exists (blend_val p q w). split; [rewrite E; apply blend_eq; assumption|].
  split; [apply (val_wf p q (nth 0 (p_alpha p) 0)); auto; unfold covers; rewrite EA; exact Cv|].
  split; [cbn [p_alpha blend_val]; rewrite (blend_same_alpha p q Wp EA); apply G; apply IN; lia|].
  intros k a. rewrite blend_any by assumption. destruct (interp_polygon r _ _ I (LL k a) NR) as (_ & _ & Q). specialize (Q i ltac:(rewrite map_length; exact Hi)).
  rewrite !NX, !NY in Q by lia. fold p q in Q. specialize (Q ltac:(lra)). unfold lerp.
  assert (D : 0 < p_Re q - p_Re p) by lra. apply (Rmult_eq_reg_r (p_Re q - p_Re p)); [|lra].
  rewrite Rmult_plus_distr_r. assert (Q2 : interp r (map p_Re af) (map (fun q => ival k q a) af) * (p_Re q - p_Re p) = ival k p a * (p_Re q - p_Re p) + (ival k q a - ival k p a) * (r - p_Re p)) by lra.
  rewrite Q2, Er. ring.
Qed.

(** ** Different grids: the range of angles jumps *)
Definition j_one : polar := mkPolar 1 [0; 10] [0; 1] [1; 1] [0; 0].
Definition j_two : polar := mkPolar 2 [0; 10] [0; 1] [1; 1] [0; 0].
Definition j_three : polar := mkPolar 3 [5; 10] [1/2; 1] [1; 1] [0; 0].
Lemma j_refutes : ~ varies_continuously.
Proof.
  intros H. assert (W1 : wf_polar j_one) by (split; [discriminate|split; [apply incr2; lra|auto]]). assert (W2 : wf_polar j_two) by (split; [discriminate|split; [apply incr2; lra|auto]]).
  assert (W3 : wf_polar j_three) by (split; [discriminate|split; [apply incr2; lra|auto]]).
  set (af := [j_one; j_two; j_three]). assert (N : af <> []) by discriminate.
  assert (I : increasing (map p_Re af)) by (apply increasing_cons; [apply incr2; cbn; lra|right; cbn; lra]).
  assert (W : Forall wf_polar af) by (repeat (apply Forall_cons; [assumption|]); apply Forall_nil).
  assert (C : Forall (fun q => covers q 5) af) by (repeat (apply Forall_cons; [unfold covers, first, final; cbn; lra|]); apply Forall_nil).
  pose proof (increasing_sorted af I) as S. rewrite Forall_forall in W.
  (* at the stored Reynolds number 2 *)
  destruct (lookup_spec af 2 N S) as (_ & _ & L2). cbn [af length Nat.sub nth p_Re j_one j_three] in L2.
  destruct (L2 ltac:(lra)) as (i & w & Hi & Hw & [K1 K2] & Er & E).
  assert (i = 0)%nat. { destruct i as [|[|i]]; [reflexivity| |lia]. cbn [nth p_Re j_two] in K1. lra. } subst i. cbn [nth p_Re j_one j_two] in *. assert (w = 1) by lra. subst w.
  rewrite (blend_eq _ _ _ W1 W2) in E. fold af in E.
  assert (V : value CL (blend_val j_one j_two 1) 0 0).
  { pose proof (value_ival CL (blend_val j_one j_two 1) 0) as Q. rewrite (blend_any CL j_one j_two 1 0 W1 W2 eq_refl) in Q.
    assert (Z1 : ival CL j_one 0 = 0) by (apply (ival_node CL j_one 0 W1); cbn; lia). assert (Z2 : ival CL j_two 0 = 0) by (apply (ival_node CL j_two 0 W2); cbn; lia).
    rewrite Z1, Z2 in Q. unfold lerp in Q. replace (0 + 1 * (0 - 0)) with 0 in Q by ring. apply Q. apply (val_wf _ _ 0); auto; unfold covers, first, final; cbn; lra. }
  assert (Cv : covers (blend_val j_one j_two 1) 0) by (apply (val_covers _ _ 0 W1 W2); try split; unfold covers, first, final; cbn; lra).
  destruct (H af CL 0 5 2 _ 0 N I ltac:(rewrite Forall_forall; exact W) C E Cv V (1/4) ltac:(lra)) as (d & Hd & D).
  (* slightly above *)
  set (r' := 2 + Rmin (d / 2) (1 / 2)). assert (R' : 2 < r' < 3 /\ Rabs (r' - 2) < d).
  { unfold r'. pose proof (Rmin_l (d / 2) (1 / 2)). pose proof (Rmin_r (d / 2) (1 / 2)). assert (0 < Rmin (d / 2) (1 / 2)) by (apply Rmin_glb_lt; lra). split; [lra|]. rewrite Rabs_right by lra. lra. }
  destruct R' as [R1 R2]. destruct (lookup_spec af r' N S) as (_ & _ & L3). cbn [af length Nat.sub nth p_Re j_one j_three] in L3.
  destruct (L3 ltac:(lra)) as (i & w & Hi2 & Hw2 & [K3 K4] & Er2 & E2).
  assert (i = 1)%nat. { destruct i as [|[|i]]; [|reflexivity|lia]. cbn [nth p_Re j_two] in K4. lra. } subst i. cbn [nth] in *. fold af in E2.
  rewrite (blend_eq _ _ _ W2 W3) in E2.
  assert (WB : wf_polar (blend_val j_two j_three w)) by (apply (val_wf _ _ 5); auto; unfold covers, first, final; cbn; lra).
  assert (F5 : In 5 (blend_alpha j_two j_three)) by (apply blend_alpha_in; unfold first, final; cbn; lra || (split; [auto|lra])).
  assert (V3 : value CL (blend_val j_two j_three w) 0 (1 / 2)).
  { pose proof (value_ival CL (blend_val j_two j_three w) 5 WB) as _. pose proof (value_ival CL (blend_val j_two j_three w) 0 WB) as Q.
    assert (F : nth 0 (p_alpha (blend_val j_two j_three w)) 0 = 5).
    { pose proof (first_in _ (proj1 WB)) as Q1. pose proof (in_first_final _ 5 (proj1 (proj2 WB)) F5) as Q2. cbn [p_alpha blend_val] in *. apply blend_alpha_in in Q1. change (nth 0 (blend_alpha j_two j_three) 0) with (first (blend_alpha j_two j_three)). set (z := first (blend_alpha j_two j_three)) in *. destruct Q1 as (_ & _ & Q1). change (first (p_alpha j_three)) with 5 in Q1. lra. }
    assert (EV : ival CL (blend_val j_two j_three w) 0 = ival CL (blend_val j_two j_three w) 5).
    { destruct (value_ival CL (blend_val j_two j_three w) 0 WB) as (Z & _). destruct (value_ival CL (blend_val j_two j_three w) 5 WB) as (Z' & _). rewrite F in Z, Z'. rewrite Z, Z' by lra. reflexivity. }
    rewrite EV in Q. rewrite (val_ival j_two j_three 5) in Q; try assumption; try (unfold covers, first, final; cbn; lra).
    assert (Z3 : ival CL j_three 5 = 1 / 2) by (apply (ival_node CL j_three 0 W3); cbn; lia).
    assert (Z2 : ival CL j_two 5 = 1 / 2). { destruct (value_ival CL j_two 5 W2) as (_ & _ & Z). specialize (Z 0%nat ltac:(cbn; lia)). cbn [j_two p_alpha nth col p_cl] in Z. fold j_two in Z. specialize (Z ltac:(lra)). lra. }
    rewrite Z2, Z3 in Q. unfold lerp in Q. replace (1 / 2 + w * (1 / 2 - 1 / 2)) with (1 / 2) in Q by ring. exact Q. }
  specialize (D r' _ _ R2 E2 V3). rewrite Rabs_right in D by lra. lra.
Qed.

(** ** One grid *)
Lemma some_slope xp f : increasing xp -> exists L, 0 < L /\ slopes_at_most L xp f.
Proof.
  intros I. assert (K : forall n, (n <= length xp)%nat -> exists L, 0 < L /\ forall j, (S j < n)%nat -> Rabs (nth (S j) f 0 - nth j f 0) <= L * (nth (S j) xp 0 - nth j xp 0)).
  { induction n as [|n IH]; intros Hn; [exists 1; split; [lra|intros; lia]|]. destruct (IH ltac:(lia)) as (L & HL & H). destruct n as [|n]; [exists 1; split; [lra|intros; lia]|].
    assert (D : 0 < nth (S n) xp 0 - nth n xp 0) by (pose proof (I n (S n) ltac:(lia)); lra).
    set (s := Rabs (nth (S n) f 0 - nth n f 0) / (nth (S n) xp 0 - nth n xp 0)). exists (Rmax L s). split; [pose proof (Rmax_l L s); lra|].
    intros j Hj. destruct (Nat.eq_dec j n) as [->|Nj].
    - apply (Rle_trans _ (s * (nth (S n) xp 0 - nth n xp 0))); [unfold s; right; field; lra|]. apply Rmult_le_compat_r; [lra|apply Rmax_r].
    - apply (Rle_trans _ _ _ (H j ltac:(lia))). apply Rmult_le_compat_r; [pose proof (I j (S j) ltac:(lia)); lra|apply Rmax_l]. }
  destruct (K (length xp) (le_n _)) as (L & HL & H). exists L. split; [exact HL|]. exact H.
Qed.
Lemma one_grid_continuous af k a r p v : af <> [] -> increasing (map p_Re af) -> Forall wf_polar af -> one_grid af -> getPolar af r = Ok p -> value k p a v ->
  forall eps, 0 < eps -> exists delta, 0 < delta /\ forall r' p' v', Rabs (r' - r) < delta -> getPolar af r' = Ok p' -> value k p' a v' -> Rabs (v' - v) < eps.
Proof.
  intros N I W G E V eps He. destruct (some_slope (map p_Re af) (map (fun q => ival k q a) af) I) as (L & HL & S). exists (eps / L). split; [apply Rdiv_lt_0_compat; lra|].
  intros r' p' v' Hr E' V'. destruct (lookup_linear af r N I W G) as (p0 & E0 & Wp & _ & H). rewrite E in E0. apply ok_inj in E0. subst p0.
  destruct (lookup_linear af r' N I W G) as (p0 & E0 & Wp' & _ & H'). rewrite E' in E0. apply ok_inj in E0. subst p0.
  rewrite (polygon_unique (p_alpha p) (col k p) a v _ (proj1 (proj2 Wp)) (proj1 Wp) V (value_ival k p a Wp)), H.
  rewrite (polygon_unique (p_alpha p') (col k p') a v' _ (proj1 (proj2 Wp')) (proj1 Wp') V' (value_ival k p' a Wp')), H'.
  apply (Rle_lt_trans _ (L * Rabs (r' - r))).
  - apply interp_lipschitz; [exact I|destruct af; [congruence|discriminate]|rewrite !map_length; reflexivity|exact S|lra].
  - apply (Rmult_lt_compat_l L) in Hr; [|exact HL]. replace (L * (eps / L)) with eps in Hr by (field; lra). exact Hr.
Qed.
