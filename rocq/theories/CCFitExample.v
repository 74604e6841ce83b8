(** A drag table that the fit turns negative, and fitting routines for the examples. *)
From Coq Require Import Reals List Bool ZArith Lra Lia.
From Verif Require Import Prelim Num FlProofs Interp InterpSpec InterpProofs Polar AeroDyn StationProofs CCAirfoil CCAirfoilProofs CCUnsteadyProofs CCAirfoilExample CCFitSpec CCFitProofs.
Import ListNotations.
Open Scope R_scope.

(** Five angles (degrees) and positive drag. *)
Definition bucket_alpha : list R := [-20; -10; 0; 10; 20].
Definition bucket_drag : list R := [39 / 1000; 4 / 1000; 4 / 1000; 4 / 1000; 39 / 1000].
Definition column_of (l : list R) : mat := mkMat (length l) 1 (fun i _ => nth i l 0).

Definition step : R := 10 * PI / 180.
Lemma step_pos : 0 < step. Proof. unfold step. assert (P := PI_RGT_0). lra. Qed.
(** The least-squares cubic. *)
Definition bucket_fit (a r : R) : R := 1 / 100 * (a / step) ^ 2 - 2 / 1000.

Lemma bucket_fit_poly : polynomial 3 1 bucket_fit.
Proof.
  exists (fun i j => match i, j with 0%nat, 0%nat => - 2 / 1000 | 2%nat, 0%nat => 1 / 100 / step ^ 2 | _, _ => 0 end).
  intros a r. unfold bucket_fit, total. cbn [seq map fold_right]. assert (S := step_pos). field. lra.
Qed.
Lemma bucket_nodes : map radians bucket_alpha = [-2 * step; - step; 0; step; 2 * step].
Proof. unfold bucket_alpha, radians, step. cbn [map]. repeat (f_equal; try field). Qed.

Lemma bucket_best : best_polynomial (map radians bucket_alpha) [10; 1000000000000000] (m_at (twice (column_of bucket_drag))) 3 1 bucket_fit.
Proof.
  split; [exact bucket_fit_poly|]. intros g (c & Hg). rewrite bucket_nodes. assert (S := step_pos).
  unfold misfit. cbn [length].
  set (q := fun r i => total 2 (fun j => c i j * r ^ j)).
  assert (G : forall a r, g a r = q r 0%nat + q r 1%nat * a + q r 2%nat * a ^ 2 + q r 3%nat * a ^ 3).
  { intros a r. rewrite Hg. unfold q, total. cbn [seq map fold_right]. ring. }
  assert (E : forall r z, z = (fun i => nth i bucket_drag 0) ->
    (z 0%nat - bucket_fit (-2 * step) r) ^ 2 + (z 1%nat - bucket_fit (- step) r) ^ 2 + (z 2%nat - bucket_fit 0 r) ^ 2 +
      (z 3%nat - bucket_fit step r) ^ 2 + (z 4%nat - bucket_fit (2 * step) r) ^ 2 <=
    (z 0%nat - g (-2 * step) r) ^ 2 + (z 1%nat - g (- step) r) ^ 2 + (z 2%nat - g 0 r) ^ 2 +
      (z 3%nat - g step r) ^ 2 + (z 4%nat - g (2 * step) r) ^ 2).
  { intros r z ->. cbn [nth bucket_drag].
    assert (V : forall k, bucket_fit (k * step) r = 1 / 100 * k ^ 2 - 2 / 1000) by (intros k; unfold bucket_fit; field; lra).
    replace (- step) with (-1 * step) by ring. replace (bucket_fit 0 r) with (bucket_fit (0 * step) r) by (f_equal; ring).
    replace (bucket_fit step r) with (bucket_fit (1 * step) r) by (f_equal; ring). rewrite !V, !G.
    generalize (q r 0%nat) (q r 1%nat) (q r 2%nat) (q r 3%nat). intros q0 q1 q2 q3.
    set (h1 := q1 * step). set (h2 := q2 * step ^ 2). set (h3 := q3 * step ^ 3).
    apply Rle_trans with (70 / 1000000 + ((q0 - 2 * h1 + 4 * h2 - 8 * h3 - 38 / 1000) ^ 2 + (q0 - h1 + h2 - h3 - 8 / 1000) ^ 2 + (q0 + 2 / 1000) ^ 2 +
      (q0 + h1 + h2 + h3 - 8 / 1000) ^ 2 + (q0 + 2 * h1 + 4 * h2 + 8 * h3 - 38 / 1000) ^ 2)).
    - assert (P : forall u, 0 <= u ^ 2) by (intros; apply pow2_ge_0).
      match goal with |- _ <= _ + (?a ^ 2 + ?b ^ 2 + ?c ^ 2 + ?d ^ 2 + ?e ^ 2) => assert (A1 := P a); assert (A2 := P b); assert (A3 := P c); assert (A4 := P d); assert (A5 := P e) end.
      apply Rle_trans with (70 / 1000000 + 0); [right; field|lra].
    - right. unfold h1, h2, h3. field. }
  unfold total. cbn [seq map fold_right nth twice column_of m_at m_cols Nat.ltb Nat.leb Nat.sub].
  assert (E1 := E 10 _ eq_refl). assert (E2 := E 1000000000000000 _ eq_refl). cbv beta in E1, E2. lra.
Qed.
Lemma bucket_misfit : misfit (map radians bucket_alpha) [10; 1000000000000000] (m_at (twice (column_of bucket_drag))) bucket_fit <= 1 / 1000.
Proof.
  rewrite bucket_nodes. assert (S := step_pos). unfold misfit, total.
  cbn [seq map fold_right nth twice column_of m_at m_cols Nat.ltb Nat.leb Nat.sub length bucket_drag].
  assert (V : forall k r, bucket_fit (k * step) r = 1 / 100 * k ^ 2 - 2 / 1000) by (intros k r; unfold bucket_fit; field; lra).
  replace (- step) with (-1 * step) by ring.
  assert (V0 : forall r, bucket_fit 0 r = - 2 / 1000) by (intros; unfold bucket_fit; field; lra).
  assert (V1 : forall r, bucket_fit step r = 8 / 1000) by (intros; unfold bucket_fit; field; lra).
  rewrite !V, !V0, !V1. lra.
Qed.

Lemma bucket_negative rbs cl cm af r : tries_polynomials_first rbs -> flat_fit rbs ->
  cc_init rbs bucket_alpha [] cl (column_of bucket_drag) cm = Ok af ->
  exists l, cc_evaluate af 0 r false = Ok (l, -2 / 1000, None).
Proof.
  intros T F E. destruct (cc_init_calls _ _ _ _ _ _ _ E) as (_ & Ed & _). cbn [length Nat.ltb Nat.leb] in Ed.
  unfold cc_evaluate. rewrite andb_false_r. eexists. f_equal. f_equal. f_equal.
  assert (Q : forall i j j', (j < m_cols (twice (column_of bucket_drag)))%nat -> (j' < m_cols (twice (column_of bucket_drag)))%nat ->
     m_at (twice (column_of bucket_drag)) i j = m_at (twice (column_of bucket_drag)) i j').
  { intros i j j' Hj Hj'. cbn [twice column_of m_cols m_at] in *. destruct j as [|[|j]], j' as [|[|j']]; try lia; reflexivity. }
  rewrite (F _ _ _ _ _ _ _ Ed Q 0 r 10).
  assert (H := T _ _ _ _ _ _ _ _ Ed bucket_best bucket_misfit 2%nat 0%nat ltac:(cbn; lia) ltac:(cbn; lia)).
  rewrite bucket_nodes in H. cbn [nth] in H. rewrite H. unfold bucket_fit. assert (S := step_pos). field. lra.
Qed.

(** * Fitting routines *)
(** The bilinear interpolation on increasing grids. *)
Fixpoint increasingb (l : list R) : bool :=
  match l with a :: (b :: _) as t => rltb a b && increasingb t | _ => true end.
Lemma increasingb_spec l : increasingb l = true <-> increasing l.
Proof.
  induction l as [|a [|b t] IH]; try (split; [intros _ i j H; cbn in H; lia|reflexivity]).
  change (increasingb (a :: b :: t)) with (rltb a b && increasingb (b :: t)).
  rewrite andb_true_iff, IH, rltb_true. split.
  - intros (L & I) i j H. destruct i as [|i].
    + destruct j as [|j]; [lia|]. cbn [nth]. destruct j as [|j]; [exact L|].
      apply Rlt_trans with b; [exact L|]. specialize (I 0%nat (S j)). apply I. cbn [length] in *. lia.
    + destruct j as [|j]; [lia|]. apply (I i j). cbn [length] in *. lia.
  - intros I. split; [apply (I 0%nat 1%nat); cbn; lia|]. intros i j H. apply (I (S i) (S j)). cbn [length] in *. lia.
Qed.
Definition bilinear : fitter := fun x y M kx ky s =>
  if increasingb x && increasingb y && negb (Nat.eqb (length x) 0) && Nat.eqb (m_rows M) (length x) && Nat.eqb (m_cols M) (length y) && rleb 0 s
  then Ok (mkSpline (fun a r => interp r y (map (fun j => interp a x (column M j)) (seq 0 (m_cols M)))) (fun _ _ => 0) (fun _ _ => Ok 0))
  else Raise ValueError.
Lemma bilinear_inv x y M kx ky s sp : bilinear x y M kx ky s = Ok sp ->
  increasing x /\ increasing y /\ length x <> 0%nat /\ m_rows M = length x /\ m_cols M = length y /\ 0 <= s /\
  sp = mkSpline (fun a r => interp r y (map (fun j => interp a x (column M j)) (seq 0 (m_cols M)))) (fun _ _ => 0) (fun _ _ => Ok 0).
Proof.
  unfold bilinear. destruct (_ && _) eqn:E; [|discriminate]. rewrite !andb_true_iff, !increasingb_spec, negb_true_iff, Nat.eqb_neq, !Nat.eqb_eq, rleb_true in E.
  intros H. apply ok_inj in H. subst sp. tauto.
Qed.
Lemma nth_seq_map (f : nat -> R) n j : (j < n)%nat -> nth j (map f (seq 0 n)) 0 = f j.
Proof. intros H. rewrite (nth_indep _ 0 (f 0%nat)) by (rewrite map_length, seq_length; exact H). rewrite map_nth, seq_nth by exact H. reflexivity. Qed.
Lemma bilinear_node x y M kx ky s sp i j : bilinear x y M kx ky s = Ok sp -> (i < length x)%nat -> (j < length y)%nat ->
  sp_ev sp (nth i x 0) (nth j y 0) = m_at M i j.
Proof.
  intros E Hi Hj. apply bilinear_inv in E. destruct E as (Ix & Iy & _ & Rm & Cm & _ & ->). cbn [sp_ev].
  rewrite interp_node; [|exact Iy|rewrite map_length, seq_length; congruence|exact Hj].
  rewrite nth_seq_map by lia. rewrite interp_node; [|exact Ix|unfold column; rewrite map_length, seq_length; congruence|exact Hi].
  unfold column. apply (nth_seq_map (fun i => m_at M i j)). lia.
Qed.
Lemma total_zero n : total n (fun _ => 0) = 0.
Proof. induction n as [|n IH]; [reflexivity|]. rewrite total_S, IH. ring. Qed.
Lemma bilinear_smooths : smooths bilinear.
Proof.
  intros x y M kx ky s sp E. assert (N := fun i j => bilinear_node x y M kx ky s sp i j E). apply bilinear_inv in E. destruct E as (_ & _ & _ & _ & _ & S & _).
  replace (misfit x y (m_at M) (sp_ev sp)) with 0; [nra|]. unfold misfit.
  rewrite (total_ext _ _ (fun i => 0)).
  - rewrite total_zero. reflexivity.
  - intros i Hi. cbv beta. rewrite (total_ext _ _ (fun j => 0)).
    + apply total_zero.
    + intros j Hj. cbv beta. rewrite N by assumption. ring.
Qed.
Lemma bilinear_accepts : accepts bilinear.
Proof.
  intros x y M kx ky s Ix Iy Kx Ky Lx Ly Rm Cm S. unfold bilinear.
  replace (_ && _) with true; [eexists; reflexivity|]. symmetry.
  rewrite !andb_true_iff, !increasingb_spec, negb_true_iff, Nat.eqb_neq, !Nat.eqb_eq, rleb_true.
  repeat split; try assumption. lia.
Qed.
Lemma bilinear_flat : flat_fit bilinear.
Proof.
  intros x y M kx ky s sp E C a r r'. apply bilinear_inv in E. destruct E as (_ & Iy & _ & _ & Cm & _ & ->). cbn [sp_ev].
  destruct y as [|y0 y]; [reflexivity|].
  assert (K : forall r, interp r (y0 :: y) (map (fun j => interp a x (column M j)) (seq 0 (m_cols M))) = interp a x (column M 0)).
  { intros t. rewrite <- (interp_const t (y0 :: y) (interp a x (column M 0)) Iy ltac:(discriminate)). f_equal.
    rewrite Cm. apply nth_ext with (d := 0) (d' := 0); [rewrite !map_length, seq_length; reflexivity|].
    intros n Hn. rewrite map_length, seq_length in Hn. rewrite nth_seq_map by exact Hn.
    rewrite (nth_indep _ 0 ((fun _ => interp a x (column M 0)) 0)) by (rewrite map_length; exact Hn). rewrite (map_nth (fun _ => interp a x (column M 0)) (y0 :: y) 0 n).
    f_equal. unfold column. apply map_ext. intros i. apply C; rewrite Cm; cbn [length] in *; lia. }
  rewrite !K. reflexivity.
Qed.

(** Least-squares polynomials are unique at the grid points. *)
Lemma polynomial_mid kx ky f g : polynomial kx ky f -> polynomial kx ky g -> polynomial kx ky (fun a r => (f a r + g a r) / 2).
Proof.
  intros (c & Hc) (d & Hd). exists (fun i j => (c i j + d i j) / 2). intros a r. rewrite Hc, Hd.
  replace ((total (S kx) (fun i => total (S ky) (fun j => c i j * a ^ i * r ^ j)) + total (S kx) (fun i => total (S ky) (fun j => d i j * a ^ i * r ^ j))) / 2)
    with (/ 2 * (total (S kx) (fun i => total (S ky) (fun j => c i j * a ^ i * r ^ j)) + total (S kx) (fun i => total (S ky) (fun j => d i j * a ^ i * r ^ j)))) by field.
  rewrite <- total_plus, <- total_scale. apply total_ext. intros i _. rewrite <- total_plus, <- total_scale. apply total_ext. intros j _. field.
Qed.
Lemma misfit_mid x y z f g : misfit x y z (fun a r => (f a r + g a r) / 2) =
  / 2 * misfit x y z f + (/ 2 * misfit x y z g + - / 4 * misfit x y (fun i j => f (nth i x 0) (nth j y 0)) g).
Proof.
  unfold misfit. rewrite <- !total_scale, <- !total_plus. apply total_ext. intros i _.
  rewrite <- !total_scale, <- !total_plus. apply total_ext. intros j _. field.
Qed.
Lemma best_unique x y z kx ky f g i j : best_polynomial x y z kx ky f -> best_polynomial x y z kx ky g ->
  (i < length x)%nat -> (j < length y)%nat -> f (nth i x 0) (nth j y 0) = g (nth i x 0) (nth j y 0).
Proof.
  intros (Pf & Bf) (Pg & Bg) Hi Hj. assert (Bm := Bf _ (polynomial_mid _ _ _ _ Pf Pg)). rewrite misfit_mid in Bm.
  specialize (Bf g Pg). specialize (Bg f Pf).
  assert (T := misfit_term x y (fun i j => f (nth i x 0) (nth j y 0)) g i j Hi Hj). cbv beta in T. nra.
Qed.

(** A routine that fits the bucket only: zero or its drag on its grid, with the degrees the constructor asks for. *)
Definition same (l l' : list R) : bool := if list_eq_dec Req_EM_T l l' then true else false.
Definition bucket_grid (x y : list R) (M : mat) (kx ky : nat) : bool :=
  same x (map radians bucket_alpha) && same y [10; 1000000000000000] && Nat.eqb kx 3 && Nat.eqb ky 1 && Nat.eqb (m_cols M) 2.
Definition holds_twice (M : mat) (l : list R) : bool := same (map (fun i => m_at M i 0) (seq 0 5)) l && same (map (fun i => m_at M i 1) (seq 0 5)) l.
Definition bucket_fitter : fitter := fun x y M kx ky s =>
  if bucket_grid x y M kx ky && holds_twice M bucket_drag
  then Ok (mkSpline (fun a _ => bucket_fit a 0) (fun _ _ => 0) (fun _ _ => Ok 0))
  else if bucket_grid x y M kx ky && holds_twice M (repeat 0 5)
  then Ok (mkSpline (fun _ _ => 0) (fun _ _ => 0) (fun _ _ => Ok 0))
  else Raise ValueError.
Lemma same_spec l l' : same l l' = true <-> l = l'.
Proof. unfold same. destruct (list_eq_dec _ l l'); split; congruence. Qed.
Lemma misfit_ext x y z z' f : (forall i j, (i < length x)%nat -> (j < length y)%nat -> z i j = z' i j) -> misfit x y z f = misfit x y z' f.
Proof. intros H. unfold misfit. apply total_ext. intros i Hi. apply total_ext. intros j Hj. rewrite H by assumption. reflexivity. Qed.
Lemma best_ext x y z z' kx ky f : (forall i j, (i < length x)%nat -> (j < length y)%nat -> z i j = z' i j) ->
  best_polynomial x y z kx ky f -> best_polynomial x y z' kx ky f.
Proof. intros H (P & B). split; [exact P|]. intros g Hg. rewrite <- !(misfit_ext x y z z' _ H). auto. Qed.
Lemma twice_entries M l : holds_twice M l = true -> length l = 5%nat -> forall i j, (i < 5)%nat -> (j < 2)%nat -> m_at M i j = nth i l 0.
Proof.
  unfold holds_twice. rewrite andb_true_iff, !same_spec. intros (A & B) L i j Hi Hj.
  destruct j as [|[|j]]; [rewrite <- A|rewrite <- B|lia].
  - symmetry. apply (nth_seq_map (fun i => m_at M i 0)). exact Hi.
  - symmetry. apply (nth_seq_map (fun i => m_at M i 1)). exact Hi.
Qed.
Lemma zero_poly kx ky : polynomial kx ky (fun _ _ => 0).
Proof.
  exists (fun _ _ => 0). intros a r. symmetry. rewrite (total_ext _ _ (fun _ => 0)); [apply total_zero|]. intros i _.
  rewrite (total_ext _ _ (fun _ => 0)); [apply total_zero|]. intros j _. ring.
Qed.
Lemma zero_best x y kx ky : best_polynomial x y (fun _ _ => 0) kx ky (fun _ _ => 0).
Proof.
  split; [apply zero_poly|]. intros g _.
  replace (misfit x y (fun _ _ => 0) (fun _ _ => 0)) with 0.
  - unfold misfit. apply total_nonneg. intros. apply total_nonneg. intros. apply pow2_ge_0.
  - symmetry. unfold misfit. rewrite (total_ext _ _ (fun _ => 0)); [apply total_zero|]. intros i _.
    rewrite (total_ext _ _ (fun _ => 0)); [apply total_zero|]. intros j _. ring.
Qed.
Lemma bucket_fitter_tries : tries_polynomials_first bucket_fitter.
Proof.
  intros x y M kx ky s sp f E B _ i j Hi Hj. unfold bucket_fitter in E.
  destruct (bucket_grid x y M kx ky) eqn:G; [|discriminate]. unfold bucket_grid in G. rewrite !andb_true_iff, !same_spec, !Nat.eqb_eq in G.
  destruct G as ((((-> & ->) & ->) & ->) & _). cbn [andb] in E.
  destruct (holds_twice M bucket_drag) eqn:H1; [|destruct (holds_twice M (repeat 0 5)) eqn:H2; [|discriminate]]; apply ok_inj in E; subst sp; cbn [sp_ev].
  - apply (best_unique _ _ (m_at M) 3 1 (fun a _ => bucket_fit a 0) f i j); [|exact B|exact Hi|exact Hj].
    apply (best_ext _ _ (m_at (twice (column_of bucket_drag)))); [|exact bucket_best].
    intros i' j' Hi' Hj'. rewrite (twice_entries M _ H1 eq_refl) by assumption. destruct j' as [|[|j']]; [reflexivity|reflexivity|cbn in Hj'; lia].
  - apply (best_unique _ _ (m_at M) 3 1 (fun _ _ => 0) f i j); [|exact B|exact Hi|exact Hj].
    apply (best_ext _ _ (fun _ _ => 0)); [|apply zero_best].
    intros i' j' Hi' Hj'. rewrite (twice_entries M _ H2 eq_refl) by assumption. symmetry. apply nth_repeat.
Qed.
Lemma bucket_fitter_flat : flat_fit bucket_fitter.
Proof.
  intros x y M kx ky s sp E _ a r r'. unfold bucket_fitter in E.
  destruct (_ && _); [|destruct (_ && _); [|discriminate]]; apply ok_inj in E; subst sp; reflexivity.
Qed.
Lemma bucket_fits : exists af, cc_init bucket_fitter bucket_alpha [] (column_of (repeat 0 5)) (column_of bucket_drag) (zeros 0 0) = Ok af.
Proof.
  unfold cc_init. cbn [length bucket_alpha map Nat.ltb Nat.leb Nat.min Nat.sub].
  change [radians (-20); radians (-10); radians 0; radians 10; radians 20] with (map radians bucket_alpha).
  assert (G : forall l, bucket_grid (map radians bucket_alpha) [10; 1000000000000000] (twice (column_of l)) 3 1 = true).
  { intros l. unfold bucket_grid. rewrite !andb_true_iff, !same_spec. repeat split; reflexivity. }
  assert (H : forall l, length l = 5%nat -> holds_twice (twice (column_of l)) l = true).
  { intros l L. unfold holds_twice. rewrite andb_true_iff, !same_spec. do 6 (destruct l as [|? l]; try discriminate L). split; reflexivity. }
  assert (C : exists sp, bucket_fitter (map radians bucket_alpha) [10; 1000000000000000] (twice (column_of (repeat 0 5))) 3%nat 1%nat (1 / 10) = Ok sp).
  { unfold bucket_fitter. rewrite (G (repeat 0 5)), (H (repeat 0 5) eq_refl). destruct (true && holds_twice _ bucket_drag); eexists; reflexivity. }
  destruct C as (sp & ->). cbn [bind]. unfold bucket_fitter at 1. rewrite (G bucket_drag), (H bucket_drag eq_refl). cbn [andb bind].
  eexists. reflexivity.
Qed.
