(** Proofs about the 3-D correction (C129, C130). *)
From Coq Require Import Reals List Bool Lra Lia.
From Verif Require Import Prelim Interp Polar PolarExt InterpSpec PolarSpec CorrSpec InterpProofs PolarProofs PolarExtProofs PolarExtFacts.
Import ListNotations.
Open Scope R_scope.

(** ** Least squares *)
Fixpoint rsum (xs ys : list R) (m c : R) : R := match xs, ys with x :: xs', y :: ys' => (y - (m * x + c)) + rsum xs' ys' m c | _, _ => 0 end.
Fixpoint xsum (xs ys : list R) (m c : R) : R := match xs, ys with x :: xs', y :: ys' => x * (y - (m * x + c)) + xsum xs' ys' m c | _, _ => 0 end.
Definition normal (xs ys : list R) (m c : R) : Prop := rsum xs ys m c = 0 /\ xsum xs ys m c = 0.

Lemma squares_shift m c dm dc : forall xs ys, squares xs ys (m + dm) (c + dc) = squares xs ys m c - 2 * (dm * xsum xs ys m c + dc * rsum xs ys m c) + squares xs (map (fun _ => 0) ys) dm dc.
Proof. induction xs as [|x xs IH]; intros [|y ys]; cbn; try ring. rewrite IH. ring. Qed.
Lemma squares_scale t m c : forall xs ys, squares xs (map (fun _ : R => 0) ys) (t * m) (t * c) = t ^ 2 * squares xs (map (fun _ : R => 0) ys) m c.
Proof. induction xs as [|x xs IH]; intros [|y ys]; cbn; try ring. rewrite IH. ring. Qed.
Lemma squares_nonneg m c : forall xs ys, 0 <= squares xs ys m c.
Proof. induction xs as [|x xs IH]; intros [|y ys]; cbn; try lra. specialize (IH ys). pose proof (pow2_ge_0 (y - (m * x + c))). cbn in H. lra. Qed.
Lemma squares_zero m c : forall xs ys, length xs = length ys -> squares xs (map (fun _ : R => 0) ys) m c = 0 -> forall x, In x xs -> m * x + c = 0.
Proof.
  induction xs as [|x xs IH]; intros [|y ys] L E z; cbn in *; try tauto; try discriminate.
  pose proof (squares_nonneg m c xs (map (fun _ : R => 0) ys)). pose proof (pow2_ge_0 (0 - (m * x + c))) as P. cbn in P.
  intros [<-|I]; [nra|]. apply (IH ys); [lia|lra|exact I].
Qed.

Lemma lin_zero a b : 0 <= b -> (forall t, 0 <= t * a + t ^ 2 * b) -> a = 0.
Proof.
  intros Hb H. destruct (Req_dec a 0) as [|N]; [assumption|exfalso].
  destruct (Req_dec b 0) as [->|Nb]; [specialize (H (- a)); nra|].
  specialize (H (- a / (2 * b))). replace (- a / (2 * b) * a + (- a / (2 * b)) ^ 2 * b) with (- (a ^ 2 / (4 * b))) in H by (field; lra).
  assert (0 < a ^ 2 / (4 * b)) by (apply Rdiv_lt_0_compat; nra). lra.
Qed.
Lemma min_normal xs ys m c : (forall m' c', squares xs ys m c <= squares xs ys m' c') -> normal xs ys m c.
Proof.
  intros H. split.
  - assert (-2 * rsum xs ys m c = 0); [|lra]. apply (lin_zero _ (squares xs (map (fun _ => 0) ys) 0 1)); [apply squares_nonneg|].
    intros t. specialize (H (m + 0) (c + t)). rewrite squares_shift in H. pose proof (squares_scale t 0 1 xs ys) as Q. rewrite Rmult_0_r, Rmult_1_r in Q. lra.
  - assert (-2 * xsum xs ys m c = 0); [|lra]. apply (lin_zero _ (squares xs (map (fun _ => 0) ys) 1 0)); [apply squares_nonneg|].
    intros t. specialize (H (m + t) (c + 0)). rewrite squares_shift in H. pose proof (squares_scale t 1 0 xs ys) as Q. rewrite Rmult_0_r, Rmult_1_r in Q. lra.
Qed.
Lemma normal_min xs ys m c m' c' : normal xs ys m c -> squares xs ys m' c' = squares xs ys m c + squares xs (map (fun _ => 0) ys) (m' - m) (c' - c).
Proof. intros [A B]. replace m' with (m + (m' - m)) at 1 by ring. replace c' with (c + (c' - c)) at 1 by ring. rewrite squares_shift, A, B. ring. Qed.
Lemma normal_unique xs ys m c m' c' : length xs = length ys -> (exists x x', In x xs /\ In x' xs /\ x <> x') -> normal xs ys m c -> normal xs ys m' c' -> m' = m /\ c' = c.
Proof.
  intros L (x & x' & I & I' & N) A B. pose proof (normal_min _ _ _ _ m' c' A) as E1. pose proof (normal_min _ _ _ _ m c B) as E2.
  pose proof (squares_nonneg (m' - m) (c' - c) xs (map (fun _ => 0) ys)). pose proof (squares_nonneg (m - m') (c - c') xs (map (fun _ => 0) ys)).
  assert (Z : squares xs (map (fun _ => 0) ys) (m' - m) (c' - c) = 0) by lra.
  pose proof (squares_zero _ _ xs ys L Z x I). pose proof (squares_zero _ _ xs ys L Z x' I').
  assert (D : (m' - m) * (x - x') = 0) by lra. apply Rmult_integral in D. destruct D as [D|D]; [|lra]. rewrite D in *. lra.
Qed.
Lemma fit_normal polyfit xs ys m c : least_squares polyfit -> length xs = length ys -> (exists x x', In x xs /\ In x' xs /\ x <> x') ->
  (polyfit xs ys = Ok (m, c) <-> normal xs ys m c).
Proof.
  intros F L T. destruct (F xs ys L T) as (m0 & c0 & E & H). apply min_normal in H. split.
  - intros Q. rewrite E in Q. apply ok_inj in Q. injection Q as <- <-. exact H.
  - intros Q. destruct (normal_unique _ _ _ _ _ _ L T Q H) as [-> ->]. exact E.
Qed.

(** A routine of that kind. *)
Definition sum_of (l : list R) : R := fold_right Rplus 0 l.
Definition lsq (xs ys : list R) : res (R * R) :=
  let n := INR (length xs) in let sx := sum_of xs in let sy := sum_of ys in
  let sxx := sum_of (map (fun x => x * x) xs) in let sxy := sum_of (map2 Rmult xs ys) in
  let m := (n * sxy - sx * sy) / (n * sxx - sx * sx) in Ok (m, (sy - m * sx) / n).
Lemma rsum_eq m c : forall xs ys, length xs = length ys -> rsum xs ys m c = sum_of ys - m * sum_of xs - INR (length xs) * c.
Proof. induction xs as [|x xs IH]; intros [|y ys] L; cbn [rsum sum_of fold_right length] in *; try lia; [cbn; ring|]. rewrite IH by lia. rewrite S_INR. unfold sum_of. ring. Qed.
Lemma xsum_eq m c : forall xs ys, length xs = length ys -> xsum xs ys m c = sum_of (map2 Rmult xs ys) - m * sum_of (map (fun x => x * x) xs) - c * sum_of xs.
Proof. unfold map2. induction xs as [|x xs IH]; intros [|y ys] L; cbn [xsum sum_of fold_right length combine map fst snd] in *; try lia; [ring|]. rewrite IH by lia. unfold sum_of. ring. Qed.
Lemma squares_eq m c : forall xs ys : list R, length xs = length ys -> squares xs (map (fun _ => 0) ys) m c = m ^ 2 * sum_of (map (fun x => x * x) xs) + 2 * m * c * sum_of xs + INR (length xs) * c ^ 2.
Proof. induction xs as [|x xs IH]; intros [|y ys] L; cbn [squares sum_of fold_right length map] in *; try lia; [cbn; ring|]. rewrite IH by lia. rewrite S_INR. unfold sum_of. ring. Qed.
Lemma spread (xs ys : list R) : length xs = length ys -> (exists x x', In x xs /\ In x' xs /\ x <> x') ->
  0 < INR (length xs) /\ 0 < INR (length xs) * sum_of (map (fun x => x * x) xs) - sum_of xs * sum_of xs.
Proof.
  intros L (x & x' & I & I' & N). assert (P : 0 < INR (length xs)) by (apply lt_0_INR; destruct xs; [destruct I|cbn; lia]). split; [exact P|].
  set (mu := sum_of xs / INR (length xs)). pose proof (squares_nonneg 1 (- mu) xs (map (fun _ => 0) ys)) as Q.
  assert (Q' : squares xs (map (fun _ => 0) ys) 1 (- mu) <> 0).
  { intros Z. pose proof (squares_zero _ _ xs ys L Z x I). pose proof (squares_zero _ _ xs ys L Z x' I'). lra. }
  rewrite squares_eq in Q, Q' by exact L.
  assert (E : INR (length xs) * sum_of (map (fun x => x * x) xs) - sum_of xs * sum_of xs = INR (length xs) * (1 ^ 2 * sum_of (map (fun x => x * x) xs) + 2 * 1 * - mu * sum_of xs + INR (length xs) * (- mu) ^ 2)) by (unfold mu; field; lra).
  rewrite E. apply Rmult_lt_0_compat; lra.
Qed.
Lemma lsq_ok : least_squares lsq.
Proof.
  intros xs ys L T. destruct (spread xs ys L T) as [P D]. unfold lsq. cbv zeta. eexists. eexists. split; [reflexivity|].
  match goal with |- forall m' c', squares xs ys ?m ?c <= _ => assert (NM : normal xs ys m c) end.
  - split; [rewrite rsum_eq by exact L; field; lra|rewrite xsum_eq by exact L; field; lra].
  - intros m' c'. rewrite (normal_min _ _ _ _ m' c' NM). pose proof (squares_nonneg (m' - (INR (length xs) * sum_of (map2 Rmult xs ys) - sum_of xs * sum_of ys) / (INR (length xs) * sum_of (map (fun x => x * x) xs) - sum_of xs * sum_of xs)) (c' - (sum_of ys - (INR (length xs) * sum_of (map2 Rmult xs ys) - sum_of xs * sum_of ys) / (INR (length xs) * sum_of (map (fun x => x * x) xs) - sum_of xs * sum_of xs) * sum_of xs) / INR (length xs)) xs (map (fun _ => 0) ys)). lra.
Qed.

(** ** The corrected polar *)
Definition corrected (m c f fd amc cd0 : R) (p : polar) : polar :=
  mkPolar (p_Re p) (p_alpha p) (map2 (fun a cl => cl + f * (m * radians a + c - cl) * adj (radians amc) (radians a)) (p_alpha p) (p_cl p))
    (map (fun cd => cd + fd * (cd - cd0)) (p_cd p)) (p_cm p).
Definition zero_drag (p : polar) : R := interp 0 (map radians (p_alpha p)) (p_cd p).
Definition du (cr tsr rR m : R) : R := selig m cr (1 / (tsr / sqrt (1 + tsr ^ 2)) / rR).
Definition dud (cr tsr rR m : R) : R := selig m cr (1 / (tsr / sqrt (1 + tsr ^ 2)) / rR / 2).

Lemma corr_eq polyfit p rR cr tsr amc lo hi m c : wf_polar p -> tsr <> 0 -> rR <> 0 -> fitted polyfit p lo hi m c -> m <> 0 ->
  correction3D polyfit p rR cr tsr amc lo hi = Ok (corrected m c (du cr tsr rR m) (dud cr tsr rR m) amc (zero_drag p) p).
Proof.
  intros (N & I & L1 & L2 & L3) Ht Hr Ef Hm. unfold correction3D.
  replace (reqb tsr 0) with false by (symmetry; apply reqb_false; exact Ht). replace (reqb rR 0) with false by (symmetry; apply reqb_false; exact Hr). cbv zeta.
  fold (linear_rows p lo hi). unfold fitted in Ef. rewrite Ef. cbn [bind fst snd].
  rewrite np_interp_ok; [|destruct (p_alpha p); [congruence|discriminate]|rewrite map_length; symmetry; exact L2].
  cbn [bind map nth]. unfold corrected. f_equal. fold (zero_drag p).
  assert (EA : map degrees (map radians (p_alpha p)) = p_alpha p) by (rewrite map_map; rewrite <- (map_id (p_alpha p)) at 2; apply map_ext, degrees_radians). rewrite EA.
  assert (EC : map2 (fun a cl => cl + selig m cr (1 / (tsr / sqrt (1 + tsr ^ 2)) / rR) * (m * (a - - c / m) - cl) * adj (radians amc) a) (map radians (p_alpha p)) (p_cl p) =
     map2 (fun a cl => cl + du cr tsr rR m * (m * radians a + c - cl) * adj (radians amc) (radians a)) (p_alpha p) (p_cl p)).
  { clear - Hm. unfold map2, du. generalize (p_cl p). induction (p_alpha p) as [|a l IH]; intros [|y ys]; [reflexivity..|]. cbn [map combine fst snd]. rewrite IH.
    f_equal. replace (m * (radians a - - c / m)) with (m * radians a + c) by (field; exact Hm). reflexivity. }
  rewrite EC. reflexivity.
Qed.
Lemma corrected_wf m c f fd amc cd0 p : wf_polar p -> wf_polar (corrected m c f fd amc cd0 p).
Proof.
  intros (N & I & L1 & L2 & L3). unfold wf_polar, corrected. cbn [p_alpha p_cl p_cd p_cm]. split; [exact N|]. split; [exact I|].
  unfold map2. rewrite !map_length, combine_length, L1, L2, L3. rewrite Nat.min_id. auto.
Qed.

(** The points of the linear range keep their angles; their distances from the line shrink alike. *)
Lemma corrected_rows m c f fd amc cd0 p lo hi : hi <= amc -> linear_rows (corrected m c f fd amc cd0 p) lo hi = map (fun x => (fst x, snd x + f * (m * fst x + c - snd x))) (linear_rows p lo hi).
Proof.
  intros H. unfold linear_rows, corrected. cbn [p_alpha p_cl]. unfold map2. generalize (p_cl p). induction (p_alpha p) as [|a l IH]; intros [|y ys]; [reflexivity..|].
  cbn [map combine filter fst snd]. specialize (IH ys). destruct (rleb (radians lo) (radians a) && rleb (radians a) (radians hi)) eqn:E; [|exact IH].
  cbn [map fst snd]. rewrite <- IH. apply andb_true_iff in E. destruct E as [_ E]. apply rleb_true in E.
  assert (A : adj (radians amc) (radians a) = 1).
  { unfold adj. destruct (rleb (radians a) (radians amc)) eqn:Q; [reflexivity|]. apply rleb_false in Q. pose proof (radians_le hi amc H). lra. }
  rewrite A, Rmult_1_r. reflexivity.
Qed.
Lemma normal_shrink m c f : forall l, rsum (map fst (map (fun x => (fst x, snd x + f * (m * fst x + c - snd x))) l)) (map snd (map (fun x => (fst x, snd x + f * (m * fst x + c - snd x))) l)) m c = (1 - f) * rsum (map fst l) (map snd l) m c /\
  xsum (map fst (map (fun x => (fst x, snd x + f * (m * fst x + c - snd x))) l)) (map snd (map (fun x => (fst x, snd x + f * (m * fst x + c - snd x))) l)) m c = (1 - f) * xsum (map fst l) (map snd l) m c.
Proof. induction l as [|[x y] l [IH1 IH2]]; [cbn; split; ring|]. cbn [map fst snd rsum xsum]. rewrite IH1, IH2. split; ring. Qed.

Lemma rows_spread p lo hi : wf_polar p -> two_angles p lo hi -> exists x x', In x (map fst (linear_rows p lo hi)) /\ In x' (map fst (linear_rows p lo hi)) /\ x <> x'.
Proof.
  intros (_ & _ & L1 & _) (a & b & Ia & Ib & Ha & Hab & Hb). exists (radians a), (radians b).
  assert (K : forall a, In a (p_alpha p) -> lo <= a <= hi -> In (radians a) (map fst (linear_rows p lo hi))).
  { intros z Hz [Z1 Z2]. apply (In_nth _ _ 0) in Hz. destruct Hz as (i & Hi & <-). apply in_map_iff. exists (radians (nth i (p_alpha p) 0), nth i (p_cl p) 0). split; [reflexivity|].
    apply filter_In. split.
    - replace (radians (nth i (p_alpha p) 0), nth i (p_cl p) 0) with (nth i (combine (map radians (p_alpha p)) (p_cl p)) (0, 0)).
      + apply nth_In. rewrite combine_length, map_length. lia.
      + rewrite combine_nth by (rewrite map_length; lia). f_equal. apply nth_map_lt. exact Hi.
    - apply andb_true_iff. cbn [fst]. split; apply rleb_true, radians_le; assumption. }
  split; [apply K; [assumption|lra]|]. split; [apply K; [assumption|lra]|]. pose proof (radians_mono a b Hab). lra.
Qed.

Lemma fitted_again polyfit p lo hi m c f fd amc cd0 : least_squares polyfit -> wf_polar p -> two_angles p lo hi -> hi <= amc -> fitted polyfit p lo hi m c ->
  fitted polyfit (corrected m c f fd amc cd0 p) lo hi m c.
Proof.
  intros F W T H E. unfold fitted in *. rewrite corrected_rows by exact H. pose proof (rows_spread p lo hi W T) as S.
  assert (L : length (map fst (linear_rows p lo hi)) = length (map snd (linear_rows p lo hi))) by (rewrite !map_length; reflexivity).
  apply (proj1 (fit_normal polyfit _ _ m c F L S)) in E. 
  set (g := fun x : R * R => (fst x, snd x + f * (m * fst x + c - snd x))). assert (S' : map fst (map g (linear_rows p lo hi)) = map fst (linear_rows p lo hi)) by (rewrite map_map; reflexivity).
  apply fit_normal; [exact F|rewrite !map_length; reflexivity|rewrite S'; exact S|].
  destruct E as [E1 E2]. destruct (normal_shrink m c f (linear_rows p lo hi)) as [Q1 Q2]. fold g in Q1, Q2. split; [rewrite Q1, E1; ring|rewrite Q2, E2; ring].
Qed.

(** ** Drag at zero angle *)
Lemma zero_drag_corrected m c f fd amc p : wf_polar p -> zero_drag (corrected m c f fd amc (zero_drag p) p) = zero_drag p.
Proof.
  intros (N & I & L1 & L2 & L3). unfold zero_drag at 1. cbn [corrected p_alpha p_cd].
  assert (Ir : increasing (map radians (p_alpha p))) by (apply incr_map; [apply radians_mono|exact I]).
  assert (Nr : map radians (p_alpha p) <> []) by (destruct (p_alpha p); [congruence|discriminate]).
  assert (Lp : (0 < length (p_alpha p))%nat) by (destruct (p_alpha p); [congruence|cbn; lia]).
  apply (polygon_unique (map radians (p_alpha p)) (map (fun cd => cd + fd * (cd - zero_drag p)) (p_cd p)) 0 _ _ Ir Nr).
  - apply interp_polygon; [exact Ir|rewrite !map_length; symmetry; exact L2|exact Nr].
  - destruct (interp_polygon 0 (map radians (p_alpha p)) (p_cd p) Ir ltac:(rewrite map_length; symmetry; exact L2) Nr) as (A & B & C). fold (zero_drag p) in A, B, C.
    unfold polygon_value. rewrite map_length in *. split; [|split].
    + intros H. specialize (A H). rewrite (nth_map_lt _ _ _ 0) by lia. rewrite <- A. ring.
    + intros H. specialize (B H). rewrite (nth_map_lt _ _ _ 0) by lia. rewrite <- B. ring.
    + intros i Hi H. specialize (C i Hi H). rewrite !(nth_map_lt (fun cd => cd + fd * (cd - zero_drag p)) _ _ 0) by lia.
      transitivity ((1 + fd) * ((zero_drag p - nth i (p_cd p) 0) * (nth (S i) (map radians (p_alpha p)) 0 - nth i (map radians (p_alpha p)) 0))); [ring|]. rewrite C. ring.
Qed.

(** Two corrections along the same line. *)
Lemma corrected_commute m c f1 d1 a1 f2 d2 a2 z p : corrected m c f2 d2 a2 z (corrected m c f1 d1 a1 z p) = corrected m c f1 d1 a1 z (corrected m c f2 d2 a2 z p).
Proof.
  unfold corrected. cbn [p_Re p_alpha p_cl p_cd p_cm]. rewrite !map_map.
  assert (E : forall cl f a f' a', map2 (fun x y => y + f' * (m * radians x + c - y) * adj (radians a') (radians x)) (p_alpha p) (map2 (fun x y => y + f * (m * radians x + c - y) * adj (radians a) (radians x)) (p_alpha p) cl) =
    map2 (fun x y => m * radians x + c - (1 - f * adj (radians a) (radians x)) * (1 - f' * adj (radians a') (radians x)) * (m * radians x + c - y)) (p_alpha p) cl).
  { intros cl f a f' a'. unfold map2. revert cl. induction (p_alpha p) as [|x l IH]; intros [|y cl]; [reflexivity..|]. cbn [combine map fst snd]. rewrite IH. f_equal. ring. }
  rewrite !E. unfold map2. f_equal; [|apply map_ext; intros; ring]. apply map_ext. intros [x y]. cbn [fst snd]. ring.
Qed.

Lemma order polyfit p lo hi m c r1 c1 t1 a1 r2 c2 t2 a2 : least_squares polyfit -> wf_polar p -> two_angles p lo hi -> hi <= a1 -> hi <= a2 ->
  t1 <> 0 -> t2 <> 0 -> r1 <> 0 -> r2 <> 0 -> fitted polyfit p lo hi m c -> m <> 0 ->
  exists b1 b2 b, correction3D polyfit p r1 c1 t1 a1 lo hi = Ok b1 /\ correction3D polyfit p r2 c2 t2 a2 lo hi = Ok b2 /\
    fitted polyfit b1 lo hi m c /\
    correction3D polyfit b1 r2 c2 t2 a2 lo hi = Ok b /\ correction3D polyfit b2 r1 c1 t1 a1 lo hi = Ok b.
Proof.
  intros F W T H1 H2 T1 T2 R1 R2 E Hm. do 3 eexists. split; [exact (corr_eq _ _ _ c1 _ a1 _ _ _ _ W T1 R1 E Hm)|]. split; [exact (corr_eq _ _ _ c2 _ a2 _ _ _ _ W T2 R2 E Hm)|].
  split; [apply fitted_again; assumption|]. split.
  - rewrite (corr_eq polyfit _ r2 c2 t2 a2 lo hi m c); [reflexivity|apply corrected_wf; exact W|assumption|assumption|apply fitted_again; assumption|assumption].
  - rewrite (corr_eq polyfit _ r1 c1 t1 a1 lo hi m c); [|apply corrected_wf; exact W|assumption|assumption|apply fitted_again; assumption|assumption].
    rewrite !zero_drag_corrected by exact W. f_equal. apply corrected_commute.
Qed.

(** ** Lift multiplied by a number *)
Lemma times_rows s p lo hi : linear_rows (lift_times s p) lo hi = map (fun x => (fst x, s * snd x)) (linear_rows p lo hi).
Proof.
  unfold linear_rows, lift_times. cbn [p_alpha p_cl]. generalize (p_cl p). induction (p_alpha p) as [|a l IH]; intros [|y ys]; [reflexivity..|].
  cbn [map combine filter fst snd]. specialize (IH ys). destruct (rleb (radians lo) (radians a) && rleb (radians a) (radians hi)); [cbn [map fst snd]; rewrite IH; reflexivity|exact IH].
Qed.
Lemma normal_times s m c : forall l, rsum (map fst (map (fun x => (fst x, s * snd x)) l)) (map snd (map (fun x => (fst x, s * snd x)) l)) (s * m) (s * c) = s * rsum (map fst l) (map snd l) m c /\
  xsum (map fst (map (fun x => (fst x, s * snd x)) l)) (map snd (map (fun x => (fst x, s * snd x)) l)) (s * m) (s * c) = s * xsum (map fst l) (map snd l) m c.
Proof. induction l as [|[x y] l [IH1 IH2]]; [cbn; split; ring|]. cbn [map fst snd rsum xsum]. rewrite IH1, IH2. split; ring. Qed.
Lemma times_fitted polyfit p lo hi m c s : least_squares polyfit -> wf_polar p -> two_angles p lo hi -> fitted polyfit p lo hi m c -> fitted polyfit (lift_times s p) lo hi (s * m) (s * c).
Proof.
  intros F W T E. unfold fitted in *. rewrite times_rows. pose proof (rows_spread p lo hi W T) as S.
  assert (L : length (map fst (linear_rows p lo hi)) = length (map snd (linear_rows p lo hi))) by (rewrite !map_length; reflexivity).
  apply (proj1 (fit_normal polyfit _ _ m c F L S)) in E. 
  set (g := fun x : R * R => (fst x, s * snd x)). assert (S' : map fst (map g (linear_rows p lo hi)) = map fst (linear_rows p lo hi)) by (rewrite map_map; reflexivity).
  apply fit_normal; [exact F|rewrite !map_length; reflexivity|rewrite S'; exact S|].
  destruct E as [E1 E2]. destruct (normal_times s m c (linear_rows p lo hi)) as [Q1 Q2]. fold g in Q1, Q2. split; [rewrite Q1, E1; ring|rewrite Q2, E2; ring].
Qed.
Lemma times_wf s p : wf_polar p -> wf_polar (lift_times s p).
Proof. intros (N & I & L1 & L2 & L3). unfold wf_polar, lift_times. cbn [p_alpha p_cl p_cd p_cm]. rewrite map_length. auto. Qed.
Lemma times polyfit p lo hi m c rR cr tsr amc s : least_squares polyfit -> wf_polar p -> two_angles p lo hi -> tsr <> 0 -> rR <> 0 -> 0 < cr -> fitted polyfit p lo hi m c -> m <> 0 -> s <> 0 ->
  exists b b', correction3D polyfit p rR cr tsr amc lo hi = Ok b /\ correction3D polyfit (lift_times s p) rR cr tsr amc lo hi = Ok b' /\
  forall i, (i < length (p_alpha p))%nat -> nth i (p_cl b') 0 - s * nth i (p_cl p) 0 = nth i (p_cl b) 0 - nth i (p_cl p) 0.
Proof.
  intros F W T Ht Hr Hc E Hm Hs. do 2 eexists. split; [exact (corr_eq _ _ _ cr _ amc _ _ _ _ W Ht Hr E Hm)|].
  assert (Hsm : s * m <> 0) by (apply Rmult_integral_contrapositive; split; assumption).
  split; [exact (corr_eq _ _ _ cr _ amc _ _ _ _ (times_wf s p W) Ht Hr (times_fitted _ _ _ _ _ _ s F W T E) Hsm)|].
  intros i Hi. destruct W as (N & I & L1 & _). unfold corrected. cbn [p_cl p_alpha lift_times]. rewrite !map2_nth by (rewrite ?map_length; lia). rewrite (nth_map_lt _ _ _ 0) by lia.
  assert (D : du cr tsr rR (s * m) * s = du cr tsr rR m).
  { unfold du, selig. set (x := Rpower cr _). assert (0 < x) by (unfold x, Rpower; apply exp_pos). field. repeat split; try assumption; lra. }
  rewrite <- D. ring.
Qed.

(** ** Stall delay *)
Definition gain (cr e : R) : R := 16 / 10 * cr / (1267 / 10000) * ((1 - Rpower cr e) / (1 + Rpower cr e)).
Lemma power_small x e : 0 < x < 1 -> 0 < e -> 0 < Rpower x e < 1.
Proof.
  intros [A B] E. unfold Rpower. split; [apply exp_pos|]. rewrite <- exp_0. apply exp_increasing. assert (ln x < 0) by (rewrite <- ln_1; apply ln_increasing; assumption). nra.
Qed.
Lemma gain_small cr e : 0 < cr -> cr <= 1267 / 16000 -> 0 < e -> gain cr e < 1.
Proof.
  intros A B E. unfold gain. destruct (power_small cr e ltac:(lra) E) as [P Q]. set (x := Rpower cr e) in *.
  assert (K : (1 - x) / (1 + x) < 1) by (apply (Rmult_lt_reg_r (1 + x)); [lra|]; replace ((1 - x) / (1 + x) * (1 + x)) with (1 - x) by (field; lra); lra).
  assert (K0 : 0 < (1 - x) / (1 + x)) by (apply Rdiv_lt_0_compat; lra).
  assert (G : 0 < 16 / 10 * cr / (1267 / 10000) <= 1) by lra. nra.
Qed.
Lemma du_gain cr tsr rR m : m <> 0 -> 0 < tsr -> 0 < rR -> m * du cr tsr rR m = gain cr (sqrt (1 + tsr ^ 2) / (tsr * rR)) - 1.
Proof.
  intros Hm Ht Hr. unfold du, selig, gain. assert (Sq : 0 < sqrt (1 + tsr ^ 2)) by (apply sqrt_lt_R0; nra).
  replace (1 / (tsr / sqrt (1 + tsr ^ 2)) / rR) with (sqrt (1 + tsr ^ 2) / (tsr * rR)) by (field; lra).
  set (x := Rpower cr _). assert (0 < x) by (unfold x, Rpower; apply exp_pos). field. lra.
Qed.
Lemma lift_low polyfit p rR cr tsr amc lo hi m c b i : wf_polar p -> 0 < rR -> 0 < tsr -> fitted polyfit p lo hi m c -> m <> 0 ->
  correction3D polyfit p rR cr tsr amc lo hi = Ok b -> (i < length (p_alpha p))%nat -> nth i (p_alpha p) 0 <= amc ->
  m * (nth i (p_cl b) 0 - nth i (p_cl p) 0) = (gain cr (sqrt (1 + tsr ^ 2) / (tsr * rR)) - 1) * (m * radians (nth i (p_alpha p) 0) + c - nth i (p_cl p) 0).
Proof.
  intros W Hr Ht E Hm B Hi Ha. rewrite (corr_eq polyfit p rR cr tsr amc lo hi m c W) in B by (assumption || lra). apply ok_inj in B. subst b. destruct W as (_ & _ & L1 & _).
  unfold corrected. cbn [p_cl]. rewrite map2_nth by lia. rewrite <- (du_gain cr tsr rR m Hm Ht Hr).
  assert (A : adj (radians amc) (radians (nth i (p_alpha p) 0)) = 1).
  { unfold adj. destruct (rleb (radians (nth i (p_alpha p) 0)) (radians amc)) eqn:Q; [reflexivity|]. apply rleb_false in Q. pose proof (radians_le _ _ Ha). lra. }
  rewrite A. ring.
Qed.
Lemma expon_pos tsr rR : 0 < tsr -> 0 < rR -> 0 < sqrt (1 + tsr ^ 2) / (tsr * rR).
Proof. intros A B. apply Rdiv_lt_0_compat; [apply sqrt_lt_R0; nra|nra]. Qed.

Definition x_polar : polar := mkPolar 1000000 [-5; 5; 20] [-1/2; 1/2; 1] [1/100; 1/100; 1/10] [0; 0; 0].
Definition x_slope : R := 1 / 2 / radians 5.
Lemma x_rad : 0 < radians 5 /\ 0 < x_slope /\ x_slope <= 6 /\ x_slope * radians 5 = 1 / 2.
Proof.
  pose proof PI2_3_2 as P. pose proof PI_RGT_0 as P0. assert (A : 0 < radians 5) by (unfold radians; lra). split; [exact A|]. unfold x_slope. split; [apply Rdiv_lt_0_compat; lra|].
  split; [|field; lra]. apply (Rmult_le_reg_r (radians 5)); [exact A|]. replace (1 / 2 / radians 5 * radians 5) with (1 / 2) by (field; lra). unfold radians. lra.
Qed.
Lemma x_wf : wf_polar x_polar.
Proof. split; [discriminate|]. split; [cbn [x_polar p_alpha]; incr_lit|auto]. Qed.
Lemma x_two : two_angles x_polar (-5) 5.
Proof. exists (-5), 5. cbn. repeat split; try lra; auto. Qed.
Lemma x_rows : linear_rows x_polar (-5) 5 = [(radians (-5), -1/2); (radians 5, 1/2)].
Proof.
  unfold linear_rows. cbn [x_polar p_alpha p_cl map combine filter fst snd].
  assert (T : forall x y, x <= y -> rleb (radians x) (radians y) = true) by (intros; apply rleb_true, radians_le; assumption).
  rewrite (T (-5) (-5)), (T (-5) 5), (T 5 5), (T (-5) 20) by lra. cbn [andb]. replace (rleb (radians 20) (radians 5)) with false by (symmetry; apply rleb_false, radians_mono; lra). reflexivity.
Qed.
Lemma x_fitted polyfit : least_squares polyfit -> fitted polyfit x_polar (-5) 5 x_slope 0.
Proof.
  intros F. unfold fitted. pose proof (rows_spread _ _ _ x_wf x_two) as S. apply fit_normal; [exact F|rewrite !map_length; reflexivity|exact S|].
  destruct x_rad as (_ & _ & _ & E). assert (N : radians (-5) = - radians 5) by (unfold radians; lra). rewrite x_rows. assert (E2 : x_slope * - radians 5 = - (1 / 2)) by lra. split; cbn [map fst snd rsum xsum]; rewrite N, E, E2; lra.
Qed.
Lemma x_line : 1 < x_slope * radians 20 + 0.
Proof. destruct x_rad as (_ & _ & _ & E). replace (radians 20) with (4 * radians 5) by (unfold radians; lra). lra. Qed.

Lemma x_lowered : ~ stall_is_delayed.
Proof.
  intros H. destruct x_rad as (_ & Hm & _). pose proof (x_fitted lsq lsq_ok) as E.
  pose proof (corr_eq lsq x_polar (1/2) (1/20) 7 30 (-5) 5 x_slope 0 x_wf ltac:(lra) ltac:(lra) E ltac:(lra)) as B.
  specialize (H lsq x_polar (1/2) (1/20) 7 30 (-5) 5 x_slope 0 _ 2%nat lsq_ok x_wf x_two ltac:(lra) ltac:(lra) ltac:(lra) ltac:(lra) E Hm B ltac:(cbn; lia) ltac:(cbn; lra)). cbv zeta in H.
  pose proof (lift_low lsq x_polar (1/2) (1/20) 7 30 (-5) 5 x_slope 0 _ 2 x_wf ltac:(lra) ltac:(lra) E ltac:(lra) B ltac:(cbn; lia) ltac:(cbn; lra)) as Q.
  pose proof (gain_small (1/20) (sqrt (1 + 7 ^ 2) / (7 * (1/2))) ltac:(lra) ltac:(lra) (expon_pos 7 (1/2) ltac:(lra) ltac:(lra))) as G.
  set (b := corrected _ _ _ _ _ _ _) in *. set (g := gain _ _) in *. change (nth 2 (p_alpha x_polar) 0) with 20 in *. change (nth 2 (p_cl x_polar) 0) with 1 in *.
  pose proof x_line as L. destruct (H L) as [H1 _]. assert (0 <= x_slope * (nth 2 (p_cl b) 0 - 1)) by nra. nra.
Qed.
(** Root section with a large chord: above the line. *)
Lemma x_gain : 7 < gain (4/5) (sqrt (1 + (12/5) ^ 2) / (12/5 * (13/240))).
Proof.
  replace (1 + (12/5) ^ 2) with ((13/5) * (13/5)) by field. rewrite sqrt_square by lra. replace (13 / 5 / (12 / 5 * (13 / 240))) with (INR 20) by (cbn [INR]; field).
  unfold gain. rewrite Rpower_pow by lra. set (x := (4/5) ^ 20). assert (X : 0 < x < 1 / 16) by (unfold x; cbn [pow]; lra).
  assert (K : 15 / 17 < (1 - x) / (1 + x)) by (apply (Rmult_lt_reg_r (1 + x)); [lra|]; replace ((1 - x) / (1 + x) * (1 + x)) with (1 - x) by (field; lra); lra).
  lra.
Qed.
Lemma x_over : exists p b i m c, wf_polar p /\ two_angles p (-5) 5 /\ fitted lsq p (-5) 5 m c /\ 4 < m <= 6 /\ correction3D lsq p (13/240) (4/5) (12/5) 30 (-5) 5 = Ok b /\
  (i < length (p_alpha p))%nat /\ nth i (p_alpha p) 0 <= 30 /\ nth i (p_cl p) 0 < m * radians (nth i (p_alpha p) 0) + c < nth i (p_cl b) 0.
Proof.
  destruct x_rad as (Hr & Hm & Hm6 & Er). pose proof (x_fitted lsq lsq_ok) as E.
  pose proof (corr_eq lsq x_polar (13/240) (4/5) (12/5) 30 (-5) 5 x_slope 0 x_wf ltac:(lra) ltac:(lra) E ltac:(lra)) as B.
  pose proof (lift_low lsq x_polar (13/240) (4/5) (12/5) 30 (-5) 5 x_slope 0 _ 2 x_wf ltac:(lra) ltac:(lra) E ltac:(lra) B ltac:(cbn; lia) ltac:(cbn; lra)) as Q.
  pose proof x_gain as G. eexists x_polar, _, 2%nat, x_slope, 0. split; [exact x_wf|]. split; [exact x_two|]. split; [exact E|].
  split. { split; [|exact Hm6]. pose proof PI_4. assert (radians 5 <= 1 / 9) by (unfold radians; lra). nra. }
  split; [exact B|]. split; [cbn; lia|]. split; [cbn; lra|].
  set (b := corrected _ _ _ _ _ _ _) in *. set (g := gain _ _) in *. change (nth 2 (p_alpha x_polar) 0) with 20 in *. change (nth 2 (p_cl x_polar) 0) with 1 in *.
  pose proof x_line as L. split; [exact L|]. nra.
Qed.
Lemma x_raised : exists b, correction3D lsq x_polar (1/10) (1/10) (3/4) 30 (-5) 5 = Ok b /\ 1 < nth 2 (p_cl b) 0 < x_slope * radians 20.
Proof.
  destruct x_rad as (Hr & Hm & Hm6 & Er). pose proof (x_fitted lsq lsq_ok) as E. pose proof (corr_eq lsq x_polar (1/10) (1/10) (3/4) 30 (-5) 5 x_slope 0 x_wf ltac:(lra) ltac:(lra) E ltac:(lra)) as B.
  eexists. split; [exact B|].
  pose proof (lift_low lsq x_polar (1/10) (1/10) (3/4) 30 (-5) 5 x_slope 0 _ 2 x_wf ltac:(lra) ltac:(lra) E ltac:(lra) B ltac:(cbn; lia) ltac:(cbn; lra)) as Q.
  assert (G : 1 < gain (1/10) (sqrt (1 + (3/4) ^ 2) / (3/4 * (1/10))) < 2).
  { replace (1 + (3/4) ^ 2) with ((5/4) * (5/4)) by field. rewrite sqrt_square by lra. unfold gain. set (x := Rpower _ _).
    assert (X : 0 < x < 1 / 100).
    { split; [unfold x, Rpower; apply exp_pos|]. apply (Rle_lt_trans _ (Rpower (1/10) (INR 3))); [|rewrite Rpower_pow by lra; cbn [pow]; lra].
      unfold x, Rpower. assert (N : ln (1/10) < 0) by (rewrite <- ln_1; apply ln_increasing; lra).
      destruct (Rle_lt_or_eq_dec (5 / 4 / (3 / 4 * (1 / 10)) * ln (1 / 10)) (INR 3 * ln (1 / 10))) as [K|K]; [cbn [INR]; nra|left; apply exp_increasing; exact K|rewrite K; right; reflexivity]. }
    assert (K : 99 / 101 < (1 - x) / (1 + x)) by (apply (Rmult_lt_reg_r (1 + x)); [lra|]; replace ((1 - x) / (1 + x) * (1 + x)) with (1 - x) by (field; lra); lra).
    assert (K2 : (1 - x) / (1 + x) < 1) by (apply (Rmult_lt_reg_r (1 + x)); [lra|]; replace ((1 - x) / (1 + x) * (1 + x)) with (1 - x) by (field; lra); lra). lra. }
  set (b := corrected _ _ _ _ _ _ _) in *. set (g := gain _ _) in *. change (nth 2 (p_alpha x_polar) 0) with 20 in *. change (nth 2 (p_cl x_polar) 0) with 1 in *.
  pose proof x_line as L. assert (M4 : 1 < x_slope) by (pose proof PI_4; assert (radians 5 <= 1 / 9) by (unfold radians; lra); nra).
  set (y := nth 2 (p_cl b) 0) in *. set (l := x_slope * radians 20) in *. rewrite Rplus_0_r in Q, L. assert (0 < x_slope * (y - 1) < l - 1) by nra. split; nra.
Qed.
