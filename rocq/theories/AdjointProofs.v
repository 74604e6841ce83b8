(** thrusttorque_bv: the reverse-mode routine returns the gradient. *)
From Coquelicot Require Import Coquelicot.
From Coq Require Import Reals Bool Arith Lia Lra.
From Verif Require Import Prelim Num Bem BemGeomSpec BemGeomProofs Cont DeriveLib BemDiff DiffSpec CurvDvProofs.
Open Scope R_scope.

(** ** Inner products and array updates *)
Lemma inner_ext n f f' g g' : (forall i, (i < n)%nat -> f i * g i = f' i * g' i) -> inner n f g = inner n f' g'.
Proof.
  induction n as [|m IH]; intros H; simpl; [reflexivity|].
  rewrite IH by (intros; apply H; lia). rewrite H by lia. reflexivity.
Qed.
Lemma inner_addat n j a v g : (j < n)%nat -> inner n (addat j a v) g = inner n a g + v * g j.
Proof.
  induction n as [|m IH]; intros Hj; [lia|]. simpl. unfold addat at 2.
  destruct (Nat.eqb_spec m j) as [->|Hne].
  - rewrite (inner_ext j (addat j a v) a g g).
    + ring.
    + intros i Hi. unfold addat. destruct (Nat.eqb_spec i j); [lia|reflexivity].
  - rewrite IH by lia. ring.
Qed.
Lemma inner_addsl n lo len a u g : (lo + len <= n)%nat ->
  inner n (addsl lo len a u) g = inner n a g + inner len u (fun j => g (lo + j)%nat).
Proof.
  revert len. induction n as [|m IH]; intros len Hl.
  - assert (len = 0)%nat by lia. subst. simpl. ring.
  - destruct (Nat.eq_dec (lo + len) (S m)) as [E|E].
    + destruct len as [|l].
      * simpl. unfold addsl at 2. replace (andb (Nat.leb lo m) (Nat.ltb m (lo + 0))) with false.
        2: { symmetry. apply andb_false_intro1. apply Nat.leb_gt. lia. }
        rewrite (inner_ext m (addsl lo 0 a u) a g g); [ring|].
        intros i Hi. unfold addsl. replace (Nat.ltb i (lo + 0)) with true by (symmetry; apply Nat.ltb_lt; lia).
        replace (Nat.leb lo i) with false by (symmetry; apply Nat.leb_gt; lia). reflexivity.
      * assert (Em : m = (lo + l)%nat) by lia.
        simpl. unfold addsl at 2.
        replace (andb (Nat.leb lo m) (Nat.ltb m (lo + S l))) with true.
        2: { symmetry. apply andb_true_intro. split; [apply Nat.leb_le|apply Nat.ltb_lt]; lia. }
        rewrite (inner_ext m (addsl lo (S l) a u) (addsl lo l a u) g g).
        2: { intros i Hi. unfold addsl.
             replace (Nat.ltb i (lo + S l)) with true by (symmetry; apply Nat.ltb_lt; lia).
             replace (Nat.ltb i (lo + l)) with true by (symmetry; apply Nat.ltb_lt; lia). reflexivity. }
        rewrite IH by lia. subst m. replace (lo + l - lo)%nat with l by lia. ring.
    + simpl. rewrite IH by lia. unfold addsl.
      replace (andb (Nat.leb lo m) (Nat.ltb m (lo + len))) with false; [ring|].
      symmetry. apply andb_false_intro2. apply Nat.ltb_ge. lia.
Qed.
Lemma inner_0 n g : inner n (fun _ => 0) g = 0.
Proof. induction n; simpl; [reflexivity|]. rewrite IHn. ring. Qed.
Lemma inner_first n f g : inner (S n) f g = f 0%nat * g 0%nat + inner n (fun i => f (S i)) (fun i => g (S i)).
Proof.
  induction n as [|m IH]; [simpl; ring|].
  change (inner (S (S m)) f g) with (inner (S m) f g + f (S m) * g (S m)). rewrite IH. simpl. ring.
Qed.
Lemma inner_pad n f a g b :
  inner (n + 2) f (pad n a g b) = f 0%nat * a + inner n (fun i => f (i + 1)%nat) g + f (n + 1)%nat * b.
Proof.
  replace (n + 2)%nat with (S (n + 1)) by lia.
  change (inner (S (n + 1)) f (pad n a g b)) with (inner (n + 1) f (pad n a g b) + f (n + 1)%nat * pad n a g b (n + 1)%nat).
  assert (E : pad n a g b (n + 1)%nat = b).
  { unfold pad. destruct (Nat.eqb_spec (n + 1) 0); [lia|]. rewrite Nat.eqb_refl. reflexivity. }
  rewrite E. replace (n + 1)%nat with (S n) by lia. rewrite inner_first.
  apply (f_equal2 Rplus); [|reflexivity]. apply (f_equal2 Rplus); [reflexivity|].
  apply inner_ext. intros i Hi. unfold pad. replace (Nat.eqb (S i) 0) with false by reflexivity.
  destruct (Nat.eqb_spec (S i) (n + 1)); [lia|]. replace (S i - 1)%nat with i by lia.
  replace (i + 1)%nat with (S i) by lia. reflexivity.
Qed.

(** ** Integration loop *)
Section Loop.
Variables (M : nat) (s fm tq vf sf th : arr) (tb yb zb qb mb : R).
Variables (s' fm' tq' vf' sf' th' : arr).

Definition pair1 (st : tq_state) : R :=
  inner M (q_fm st) fm' + inner M (q_tq st) tq' + inner M (q_vf st) vf' + inner M (q_sf st) sf'
  + inner M (q_th st) th' + inner M (q_s st) s'.

(** Derivative of a trapezoidal sum. *)
Fixpoint trapz_d (m : nat) (f f' u u' : arr) : R :=
  match m with
  | O => 0
  | S j => trapz_d j f f' u u'
           + (1 / 2 * (f' j + f' (S j)) * (u (S j) - u j) + 1 / 2 * (f j + f (S j)) * (u' (S j) - u' j))
  end.
Definition seeded_d (m : nat) : R :=
  tb * trapz_d m th th' s s' + yb * trapz_d m sf sf' s s' + zb * trapz_d m vf vf' s s'
  + qb * trapz_d m tq tq' s s' + mb * trapz_d m fm fm' s s'.

Lemma loop1 m st : (m < M)%nat ->
  pair1 (down tq_state (tq_step s fm tq vf sf th tb yb zb qb mb) m st) = pair1 st + seeded_d m.
Proof.
  revert st. induction m as [|j IH]; intros st Hm; simpl.
  - unfold seeded_d. simpl. ring.
  - rewrite IH by lia. unfold seeded_d. cbn [trapz_d].
    unfold pair1, tq_step. cbn [q_fm q_tq q_vf q_sf q_th q_s].
    rewrite !inner_addat by lia. ring.
Qed.
End Loop.

Lemma trapz_dv m (f u : nat -> R -> R) (t : R) (f' u' : arr) :
  (forall i, (i <= m)%nat -> is_derive (f i) t (f' i)) -> (forall i, (i <= m)%nat -> is_derive (u i) t (u' i)) ->
  is_derive (fun s => trapz m (at_time f s) (at_time u s)) t (trapz_d m (at_time f t) f' (at_time u t) u').
Proof.
  intros Hf Hu. induction m as [|j IH]; cbn [trapz trapz_d]; [apply d_const|].
  apply d_plus; [apply IH; intros; [apply Hf|apply Hu]; lia|].
  pose proof (Hf j ltac:(lia)). pose proof (Hf (S j) ltac:(lia)).
  pose proof (Hu j ltac:(lia)). pose proof (Hu (S j) ltac:(lia)). unfold at_time. der. ring.
Qed.

(** ** Path length *)
Section Path.
Variables (M : nat) (r pc ps r' pc' ps' : arr).
Let s' := curv_sd r pc ps r' pc' ps'.
Definition pair2 (st : sb_state) : R :=
  inner M (b_s st) s' + inner M (b_pc st) pc' + inner M (b_ps st) ps' + inner M (b_r st) r'.

Lemma inner_setat n j a v g : (j < n)%nat -> inner n (setat j a v) g = inner n a g + (v - a j) * g j.
Proof.
  intros Hj. rewrite <- inner_addat by exact Hj. apply inner_ext. intros i Hi. unfold setat, addat.
  destruct (Nat.eqb_spec i j) as [->|]; [|reflexivity]. ring.
Qed.

Lemma step2 j st : (S j < M)%nat -> pair2 (sb_step r pc ps st j) = pair2 st.
Proof.
  intros Hj. unfold pair2, sb_step. cbn [b_s b_pc b_ps b_r].
  rewrite inner_setat by lia. rewrite !inner_addat by lia.
  replace (addat j (b_s st) (b_s st (S j)) (S j)) with (b_s st (S j)).
  2: { unfold addat. destruct (Nat.eqb_spec (S j) j); [lia|reflexivity]. }
  assert (Es : s' (S j) = s' j + (if reqb ((pc (S j) - pc j) ^ 2 + (ps (S j) - ps j) ^ 2 + (r (S j) - r j) ^ 2) 0 then 0
      else (2 * (pc (S j) - pc j) * (pc' (S j) - pc' j) + 2 * (ps (S j) - ps j) * (ps' (S j) - ps' j)
            + 2 * (r (S j) - r j) * (r' (S j) - r' j))
           / (2 * sqrt ((pc (S j) - pc j) ^ 2 + (ps (S j) - ps j) ^ 2 + (r (S j) - r j) ^ 2)))) by reflexivity.
  rewrite Es. destruct (reqb ((pc (S j) - pc j) ^ 2 + (ps (S j) - ps j) ^ 2 + (r (S j) - r j) ^ 2) 0); [ring|].
  unfold Rdiv. ring.
Qed.

Lemma loop2 m st : (m < M)%nat -> pair2 (down sb_state (sb_step r pc ps) m st) = pair2 st.
Proof.
  revert st. induction m as [|j IH]; intros st Hm; simpl; [reflexivity|].
  rewrite IH by lia. apply step2. lia.
Qed.

Lemma loop2_zero m st i : (1 <= i <= m)%nat -> b_s (down sb_state (sb_step r pc ps) m st) i = 0.
Proof.
  assert (K : forall m st i, (m < i)%nat -> b_s (down sb_state (sb_step r pc ps) m st) i = b_s st i).
  { intros m0. induction m0 as [|j IH]; intros st0 k Hk; simpl; [reflexivity|].
    rewrite IH by lia. cbn. unfold setat, addat. destruct (Nat.eqb_spec k (S j)); [lia|].
    destruct (Nat.eqb_spec k j); [lia|reflexivity]. }
  revert st. induction m as [|j IH]; intros st Hi; [lia|]. simpl.
  destruct (Nat.eq_dec i (S j)) as [->|Hne].
  - rewrite K by lia. cbn. unfold setat. rewrite Nat.eqb_refl. reflexivity.
  - apply IH. lia.
Qed.
End Path.

Lemma path_adjoint M r pc ps r' pc' ps' sb : (1 <= M)%nat ->
  let st := down sb_state (sb_step r pc ps) (M - 1) (mkSb sb (fun _ => 0) (fun _ => 0) (fun _ => 0)) in
  inner M sb (curv_sd r pc ps r' pc' ps') = inner M (b_pc st) pc' + inner M (b_ps st) ps' + inner M (b_r st) r'.
Proof.
  intros HM st.
  pose proof (loop2 M r pc ps r' pc' ps' (M - 1) (mkSb sb (fun _ => 0) (fun _ => 0) (fun _ => 0)) ltac:(lia)) as L.
  fold st in L. unfold pair2 in L. cbn [b_s b_pc b_ps b_r] in L. rewrite !inner_0 in L.
  assert (Z : inner M (b_s st) (curv_sd r pc ps r' pc' ps') = 0).
  { rewrite <- (inner_0 M (fun _ => 0)). apply inner_ext. intros i Hi. destruct i as [|i]; [simpl; ring|].
    unfold st. rewrite loop2_zero by lia. ring. }
  rewrite Z in L. lra.
Qed.

(** ** Cone angle and coordinates *)
Section Cone.
Variables (m : nat) (r pc ps : arr) (precone : R) (r' pc' ps' : arr) (p' : R).
Let M := S (S m).
Variables (z_azb coneb sb : arr).
Let x := fun i => - (r i * sin precone) + pc i * cos precone.
Let z := fun i => r i * cos precone + pc i * sin precone.
Let x' := fun i => cos precone * pc' i - (pc i * sin precone + r i * cos precone) * p' - sin precone * r' i.
Let z' := fun i => cos precone * r' i - (r i * sin precone - pc i * cos precone) * p' + sin precone * pc' i.

Lemma inner_ends f g : inner M f g = f 0%nat * g 0%nat + inner m (fun i => f (i + 1)%nat) (fun i => g (i + 1)%nat) + f (S m) * g (S m).
Proof.
  unfold M. change (inner (S (S m)) f g) with (inner (S m) f g + f (S m) * g (S m)). rewrite inner_first.
  apply (f_equal2 Rplus); [|reflexivity]. apply (f_equal2 Rplus); [reflexivity|].
  apply inner_ext. intros i _. replace (i + 1)%nat with (S i) by lia. reflexivity.
Qed.

Lemma inner_comb6 k f1 f2 f3 f4 f5 f6 h g1 g2 g3 g4 g5 g6 e :
  (forall i, (i < k)%nat -> f1 i * g1 i + f2 i * g2 i + f3 i * g3 i + f4 i * g4 i + f5 i * g5 i + f6 i * g6 i = h i * e i) ->
  inner k f1 g1 + inner k f2 g2 + inner k f3 g3 + inner k f4 g4 + inner k f5 g5 + inner k f6 g6 = inner k h e.
Proof.
  induction k as [|j IH]; intros H; simpl; [ring|]. rewrite <- IH by (intros; apply H; lia).
  rewrite <- H by lia. ring.
Qed.

Lemma coord_adjoint k (xb zb : arr) :
  inner k xb x' + inner k zb z' =
  inner k (fun i => cos precone * zb i - sin precone * xb i) r'
  + inner k (fun i => cos precone * xb i + sin precone * zb i) pc'
  + p' * (cos precone * asum k (fun i => pc i * zb i) - sin precone * asum k (fun i => pc i * xb i)
          - cos precone * asum k (fun i => r i * xb i) - sin precone * asum k (fun i => r i * zb i)).
Proof. induction k as [|j IH]; simpl; [ring|]. unfold x', z' in *. simpl in IH. nra. Qed.

Lemma inner_plus k f1 f2 f3 g : inner k (fun i => f1 i + f2 i + f3 i) g = inner k f1 g + inner k f2 g + inner k f3 g.
Proof. induction k as [|j IH]; simpl; [ring|]. rewrite IH. ring. Qed.
Lemma inner_plus' k f1 f2 f3 g : inner k (fun i => f1 i + f2 i - f3 i) g = inner k f1 g + inner k (fun i => f2 i - f3 i) g.
Proof. induction k as [|j IH]; simpl; [ring|]. rewrite IH. ring. Qed.
Lemma inner_plus'' k f1 f2 f3 g : inner k (fun i => f1 i + f2 i + f3 i) g = inner k f1 g + inner k (fun i => f2 i + f3 i) g.
Proof. induction k as [|j IH]; simpl; [ring|]. rewrite IH. ring. Qed.

Lemma curv_adjoint :
  let d := defineCurvature_bv M r pc ps precone z_azb coneb sb in
  inner M z_azb z' + inner M coneb (curv_coned M x z x' z') + inner M sb (curv_sd r pc ps r' pc' ps') =
  inner M (cb_r d) r' + inner M (cb_pc d) pc' + inner M (cb_ps d) ps' + cb_precone d * p'.
Proof.
  intros d. rewrite (path_adjoint M r pc ps r' pc' ps' sb) by (unfold M; lia).
  unfold d, defineCurvature_bv. cbv zeta. fold x z. cbn [cb_r cb_pc cb_ps cb_precone].
  set (st := down sb_state (sb_step r pc ps) (M - 1) (mkSb sb (fun _ => 0) (fun _ => 0) (fun _ => 0))).
  match goal with |- _ = inner M (fun i => b_r st i + cos precone * ?zb i - sin precone * ?xb i) r' + _ + _ + _ =>
    set (XB := xb); set (ZB := zb) end.
  rewrite inner_plus', inner_plus''.
  pose proof (coord_adjoint M XB ZB) as CA.
  cut (inner M XB x' + inner M ZB z' = inner M z_azb z' + inner M coneb (curv_coned M x z x' z')).
  { intros CC. rewrite CA in CC. lra. }
  clear CA. unfold XB, ZB. clear XB ZB.
  rewrite (inner_ends coneb).
  replace (M - 1)%nat with (S m) by (unfold M; lia). replace (M - 2)%nat with m by (unfold M; lia).
  rewrite !inner_addat by (unfold M; lia). rewrite !inner_addsl by (unfold M; lia).
  rewrite !inner_addat by (unfold M; lia). rewrite inner_0.
  assert (E0 : curv_coned M x z x' z' 0%nat = seg_coned x z x' z' 0) by reflexivity.
  assert (E1 : curv_coned M x z x' z' (S m) = seg_coned x z x' z' m).
  { unfold curv_coned. replace (Nat.eqb (S m) 0) with false by reflexivity.
    replace (M - 1)%nat with (S m) by (unfold M; lia). rewrite Nat.eqb_refl.
    replace (M - 2)%nat with m by (unfold M; lia). reflexivity. }
  rewrite E0, E1.
  match goal with |- context [inner m (fun i => coneb (i + 1)%nat) ?g] =>
    rewrite <- (inner_comb6 m
      (fun j => (z (j + 1)%nat - z j) * (1 / 2 * coneb (j + 1)%nat) / ((x j - x (j + 1)%nat) ^ 2 + (z (j + 1)%nat - z j) ^ 2))
      (fun j => (z (j + 2)%nat - z (j + 1)%nat) * (1 / 2 * coneb (j + 1)%nat) / ((x (j + 1)%nat - x (j + 2)%nat) ^ 2 + (z (j + 2)%nat - z (j + 1)%nat) ^ 2)
         - (z (j + 1)%nat - z j) * (1 / 2 * coneb (j + 1)%nat) / ((x j - x (j + 1)%nat) ^ 2 + (z (j + 1)%nat - z j) ^ 2))
      (fun j => - ((z (j + 2)%nat - z (j + 1)%nat) * (1 / 2 * coneb (j + 1)%nat) / ((x (j + 1)%nat - x (j + 2)%nat) ^ 2 + (z (j + 2)%nat - z (j + 1)%nat) ^ 2)))
      (fun j => - ((x j - x (j + 1)%nat) * (1 / 2 * coneb (j + 1)%nat) / ((x j - x (j + 1)%nat) ^ 2 + (z (j + 1)%nat - z j) ^ 2))
         - - ((x (j + 1)%nat - x (j + 2)%nat) * (1 / 2 * coneb (j + 1)%nat) / ((x (j + 1)%nat - x (j + 2)%nat) ^ 2 + (z (j + 2)%nat - z (j + 1)%nat) ^ 2)))
      (fun j => - - ((x j - x (j + 1)%nat) * (1 / 2 * coneb (j + 1)%nat) / ((x j - x (j + 1)%nat) ^ 2 + (z (j + 1)%nat - z j) ^ 2)))
      (fun j => - ((x (j + 1)%nat - x (j + 2)%nat) * (1 / 2 * coneb (j + 1)%nat) / ((x (j + 1)%nat - x (j + 2)%nat) ^ 2 + (z (j + 2)%nat - z (j + 1)%nat) ^ 2)))
      (fun i => coneb (i + 1)%nat)
      (fun j => x' (0 + j)%nat) (fun j => x' (1 + j)%nat) (fun j => x' (2 + j)%nat)
      (fun j => z' (1 + j)%nat) (fun j => z' (0 + j)%nat) (fun j => z' (2 + j)%nat) g)
  end.
  - unfold seg_coned. cbv zeta. replace (0 + 1)%nat with 1%nat by reflexivity. replace (m + 1)%nat with (S m) by lia.
    replace (- (x 1%nat - x 0%nat)) with (x 0%nat - x 1%nat) by ring.
    replace (- (x (S m) - x m)) with (x m - x (S m)) by ring.
    unfold x, z, Rdiv. ring.
  - intros i Hi. unfold curv_coned. destruct (Nat.eqb_spec (i + 1) 0); [lia|].
    destruct (Nat.eqb_spec (i + 1) (M - 1)) as [E|_]; [unfold M in E; lia|].
    replace (i + 1 - 1)%nat with i by lia. unfold seg_coned. cbv zeta.
    replace (i + 1 + 1)%nat with (i + 2)%nat by lia.
    replace (0 + i)%nat with i by lia. replace (1 + i)%nat with (i + 1)%nat by lia. replace (2 + i)%nat with (i + 2)%nat by lia.
    replace (- (x (i + 1)%nat - x i)) with (x i - x (i + 1)%nat) by ring.
    replace (- (x (i + 2)%nat - x (i + 1)%nat)) with (x (i + 1)%nat - x (i + 2)%nat) by ring.
    unfold Rdiv. ring.
Qed.
End Cone.

(** ** The routine *)
Lemma pad_derive n (a b : R -> R) (f : nat -> R -> R) (t a' b' : R) (f' : arr) :
  is_derive a t a' -> is_derive b t b' -> curves_derive n f t f' ->
  curves_derive (n + 2) (fun i s => pad n (a s) (at_time f s) (b s) i) t (pad n a' f' b').
Proof.
  intros Ha Hb Hf i Hi. unfold pad. destruct (Nat.eqb_spec i 0); [exact Ha|].
  destruct (Nat.eqb_spec i (n + 1)); [exact Hb|]. apply (Hf (i - 1)%nat). lia.
Qed.

Lemma curv_zd_ext r r2 pc pc2 p rd pcd pd nd i : r i = r2 i -> pc i = pc2 i ->
  curv_zd r pc p rd pcd pd nd i = curv_zd r2 pc2 p rd pcd pd nd i.
Proof. intros E1 E2. unfold curv_zd. rewrite E1, E2. reflexivity. Qed.

Lemma extends_pad n a f b g : extends n a f b g -> forall i, (i < n + 2)%nat -> g i = pad n a f b i.
Proof.
  intros (H1 & H2 & H3) i Hi. unfold pad. destruct (Nat.eqb_spec i 0) as [->|]; [exact H1|].
  destruct (Nat.eqb_spec i (n + 1)) as [->|]; [replace (n + 1)%nat with (S n) by lia; exact H3|].
  destruct i as [|i]; [lia|]. rewrite H2 by lia. replace (S i - 1)%nat with i by lia. reflexivity.
Qed.
Lemma pad_extends n a f b : extends n a f b (pad n a f b).
Proof.
  split; [|split].
  - reflexivity.
  - intros i Hi. unfold pad. replace (Nat.eqb (S i) 0) with false by reflexivity.
    destruct (Nat.eqb_spec (S i) (n + 1)); [lia|]. replace (S i - 1)%nat with i by lia. reflexivity.
  - unfold pad. replace (Nat.eqb (S n) 0) with false by reflexivity.
    destruct (Nat.eqb_spec (S n) (n + 1)); [reflexivity|lia].
Qed.

Lemma inner_rearr k (np tp cone z fm tq vf sf th s np' tp' z' cone' s' : arr) :
  inner k fm (fun i => np' i * z i + np i * z' i) + inner k tq (fun i => tp' i * z i + tp i * z' i)
  + inner k vf (fun i => np' i * sin (cone i) + np i * (cos (cone i) * cone' i)) + inner k sf tp'
  + inner k th (fun i => np' i * cos (cone i) + np i * (- sin (cone i) * cone' i)) + inner k s s' =
  inner k (fun i => z i * fm i + sin (cone i) * vf i + cos (cone i) * th i) np'
  + inner k (fun i => z i * tq i + sf i) tp'
  + (inner k (fun i => np i * fm i + tp i * tq i) z'
     + inner k (fun i => cos (cone i) * np i * vf i - sin (cone i) * np i * th i) cone' + inner k s s').
Proof. induction k as [|j IH]; simpl; [ring|]. nra. Qed.

Lemma thrustTorque_bv_exact : forall n (Np Tp r pc ps : nat -> R -> R)
    (precone Rhub Rtip pcTip psTip : R -> R) (t : R)
    (Np' Tp' r' pc' ps' : nat -> R) (precone' Rhub' Rtip' pcTip' psTip' : R) (tb yb zb qb mb : dirs) nd,
  curves_derive n Np t Np' -> curves_derive n Tp t Tp' -> curves_derive n r t r' ->
  curves_derive n pc t pc' -> curves_derive n ps t ps' ->
  is_derive precone t precone' -> is_derive Rhub t Rhub' -> is_derive Rtip t Rtip' ->
  is_derive pcTip t pcTip' -> is_derive psTip t psTip' ->
  (forall rf cf wf, extends n (Rhub t) (at_time r t) (Rtip t) rf -> extends n 0 (at_time pc t) (pcTip t) cf ->
     let c := defineCurvature (n + 2) rf cf wf (precone t) in proper_segments (n + 2) (out_x c) (out_z c)) ->
  let f := fun s => thrustTorque n (at_time Np s) (at_time Tp s) (at_time r s) (at_time pc s) (at_time ps s)
             (precone s) (Rhub s) (Rtip s) (pcTip s) (psTip s) in
  let d := thrustTorque_bv n (at_time Np t) (at_time Tp t) (at_time r t) (at_time pc t) (at_time ps t)
             (precone t) (Rhub t) (Rtip t) (pcTip t) (psTip t) tb yb zb qb mb nd in
  is_derive (fun s => seeded (tb nd) (yb nd) (zb nd) (qb nd) (mb nd) (f s)) t
    (inner n (tb_np d) Np' + inner n (tb_tp d) Tp' + inner n (tb_r d) r' + inner n (tb_pc d) pc'
     + inner n (tb_ps d) ps' + tb_precone d * precone' + tb_rhub d * Rhub' + tb_rtip d * Rtip'
     + tb_pctip d * pcTip' + tb_pstip d * psTip').
Proof.
  intros n Np Tp r pc ps precone Rhub Rtip pcTip psTip t Np' Tp' r' pc' ps' precone' Rhub' Rtip' pcTip' psTip'
    tb yb zb qb mb nd HN HT Hr Hpc Hps Hp Hh Ht Hpt Hst Hseg f d.
  set (RF := fun i s => pad n (Rhub s) (at_time r s) (Rtip s) i).
  set (CF := fun i s => pad n 0 (at_time pc s) (pcTip s) i).
  set (WF := fun i s => pad n 0 (at_time ps s) (psTip s) i).
  set (NF := fun i s => pad n 0 (at_time Np s) 0 i).
  set (TF := fun i s => pad n 0 (at_time Tp s) 0 i).
  set (RD := pad n Rhub' r' Rtip'). set (CD := pad n 0 pc' pcTip'). set (WD := pad n 0 ps' psTip').
  set (ND := pad n 0 Np' 0). set (TD := pad n 0 Tp' 0).
  assert (DR : curves_derive (n + 2) RF t RD) by (apply pad_derive; assumption).
  assert (DC : curves_derive (n + 2) CF t CD) by (apply (pad_derive n (fun _ => 0)); [apply d_const|assumption|assumption]).
  assert (DW : curves_derive (n + 2) WF t WD) by (apply (pad_derive n (fun _ => 0)); [apply d_const|assumption|assumption]).
  assert (DN : curves_derive (n + 2) NF t ND) by (apply (pad_derive n (fun _ => 0) (fun _ => 0)); [apply d_const|apply d_const|assumption]).
  assert (DT : curves_derive (n + 2) TF t TD) by (apply (pad_derive n (fun _ => 0) (fun _ => 0)); [apply d_const|apply d_const|assumption]).
  set (g := fun s => defineCurvature (n + 2) (at_time RF s) (at_time CF s) (at_time WF s) (precone s)).
  assert (HS : proper_segments (n + 2) (out_x (g t)) (out_z (g t))).
  { apply (Hseg (at_time RF t) (at_time CF t) (at_time WF t)); apply pad_extends. }
  destruct (curv_dv2_exact (n + 2) RF CF WF precone t (fun _ => RD) (fun _ => CD) (fun _ => WD) (fun _ => precone') 0
    ltac:(lia) DR DC DW Hp HS) as (_ & _ & _ & Dz & Dc & Ds).
  fold g in Dz, Dc, Ds.
  set (cv := defineCurvature_dv2 (n + 2) (at_time RF t) (fun _ => RD) (at_time CF t) (fun _ => CD) (at_time WF t)
     (fun _ => WD) (precone t) (fun _ => precone')) in *.
  set (Z := fun i s => out_z (g s) i) in *. set (C := fun i s => out_cone (g s) i) in *. set (S0 := fun i s => out_s (g s) i) in *.
  set (ZD := cv_zd (fst cv) 0) in *. set (CoD := cv_coned (fst cv) 0) in *. set (SD := snd cv 0%nat) in *.
  set (TH := fun i s => NF i s * cos (C i s)). set (VF := fun i s => NF i s * sin (C i s)).
  set (TQ := fun i s => TF i s * Z i s). set (FM := fun i s => NF i s * Z i s).
  set (THD := fun i => ND i * cos (C i t) + NF i t * (- sin (C i t) * CoD i)).
  set (VFD := fun i => ND i * sin (C i t) + NF i t * (cos (C i t) * CoD i)).
  set (TQD := fun i => TD i * Z i t + TF i t * ZD i).
  set (FMD := fun i => ND i * Z i t + NF i t * ZD i).
  assert (DTH : curves_derive (n + 2) TH t THD).
  { intros i Hi. pose proof (DN i Hi). pose proof (Dc i Hi). unfold TH, THD. der. ring. }
  assert (DVF : curves_derive (n + 2) VF t VFD).
  { intros i Hi. pose proof (DN i Hi). pose proof (Dc i Hi). unfold VF, VFD. der. ring. }
  assert (DTQ : curves_derive (n + 2) TQ t TQD).
  { intros i Hi. pose proof (DT i Hi). pose proof (Dz i Hi). unfold TQ, TQD. der. ring. }
  assert (DFM : curves_derive (n + 2) FM t FMD).
  { intros i Hi. pose proof (DN i Hi). pose proof (Dz i Hi). unfold FM, FMD. der. ring. }
  set (GOAL := inner n (tb_np d) Np' + inner n (tb_tp d) Tp' + inner n (tb_r d) r' + inner n (tb_pc d) pc'
     + inner n (tb_ps d) ps' + tb_precone d * precone' + tb_rhub d * Rhub' + tb_rtip d * Rtip'
     + tb_pctip d * pcTip' + tb_pstip d * psTip').
  apply (is_derive_ext (fun s => tb nd * trapz (n + 1) (at_time TH s) (at_time S0 s)
     + yb nd * trapz (n + 1) (at_time TF s) (at_time S0 s) + zb nd * trapz (n + 1) (at_time VF s) (at_time S0 s)
     + qb nd * trapz (n + 1) (at_time TQ s) (at_time S0 s) + mb nd * trapz (n + 1) (at_time FM s) (at_time S0 s)));
    [intros s; reflexivity|].
  pose proof (trapz_dv (n + 1) TH S0 t THD SD (fun i Hi => DTH i ltac:(lia)) (fun i Hi => Ds i ltac:(lia))) as T1.
  pose proof (trapz_dv (n + 1) TF S0 t TD SD (fun i Hi => DT i ltac:(lia)) (fun i Hi => Ds i ltac:(lia))) as T2.
  pose proof (trapz_dv (n + 1) VF S0 t VFD SD (fun i Hi => DVF i ltac:(lia)) (fun i Hi => Ds i ltac:(lia))) as T3.
  pose proof (trapz_dv (n + 1) TQ S0 t TQD SD (fun i Hi => DTQ i ltac:(lia)) (fun i Hi => Ds i ltac:(lia))) as T4.
  pose proof (trapz_dv (n + 1) FM S0 t FMD SD (fun i Hi => DFM i ltac:(lia)) (fun i Hi => Ds i ltac:(lia))) as T5.
  der.
  set (zero := fun _ : nat => 0).
  set (st := down tq_state (tq_step (at_time S0 t) (at_time FM t) (at_time TQ t) (at_time VF t) (at_time TF t) (at_time TH t)
               (tb nd) (yb nd) (zb nd) (qb nd) (mb nd)) (n + 1) (mkTq zero zero zero zero zero zero)).
  pose proof (loop1 (n + 2) (at_time S0 t) (at_time FM t) (at_time TQ t) (at_time VF t) (at_time TF t) (at_time TH t)
     (tb nd) (yb nd) (zb nd) (qb nd) (mb nd) SD FMD TQD VFD TD THD (n + 1) (mkTq zero zero zero zero zero zero) ltac:(lia)) as LP.
  fold st in LP. unfold pair1 in LP. cbn [q_fm q_tq q_vf q_sf q_th q_s] in LP. unfold zero in LP. rewrite !inner_0 in LP.
  unfold seeded_d in LP.
  transitivity (inner (n + 2) (q_fm st) FMD + inner (n + 2) (q_tq st) TQD + inner (n + 2) (q_vf st) VFD
    + inner (n + 2) (q_sf st) TD + inner (n + 2) (q_th st) THD + inner (n + 2) (q_s st) SD); [|rewrite LP; ring].
  unfold FMD, TQD, VFD, THD.
  pose proof (inner_rearr (n + 2) (at_time NF t) (at_time TF t) (at_time C t) (at_time Z t)
    (q_fm st) (q_tq st) (q_vf st) (q_sf st) (q_th st) (q_s st) ND TD ZD CoD SD) as IR. unfold at_time at 1 2 3 4 5 6 7 8 9 10 11 12 in IR.
  rewrite IR. clear IR LP.
  set (zb0 := fun i => at_time NF t i * q_fm st i + at_time TF t i * q_tq st i).
  set (cb0 := fun i => cos (at_time C t i) * at_time NF t i * q_vf st i - sin (at_time C t i) * at_time NF t i * q_th st i).
  pose proof (curv_adjoint n (at_time RF t) (at_time CF t) (at_time WF t) (precone t) RD CD WD precone' zb0 cb0 (q_s st)) as CA.
  cbv zeta in CA. replace (S (S n)) with (n + 2)%nat in CA by lia.
  set (db := defineCurvature_bv (n + 2) (at_time RF t) (at_time CF t) (at_time WF t) (precone t) zb0 cb0 (q_s st)) in *.
  match type of CA with inner _ _ ?a + inner _ _ ?b + inner _ _ ?c = _ => change (inner (n + 2) zb0 ZD + inner (n + 2) cb0 b + inner (n + 2) (q_s st) SD
     = inner (n + 2) (cb_r db) RD + inner (n + 2) (cb_pc db) CD + inner (n + 2) (cb_ps db) WD + cb_precone db * precone') in CA;
     replace b with CoD in CA end.
  2: { unfold CoD. cbn [cv cv_coned fst defineCurvature_dv2 defineCurvature_dv].
       match goal with |- curv_coned _ ?a _ _ _ = curv_coned _ ?b _ _ _ => replace a with b; [reflexivity|] end.
       apply FunctionalExtensionality.functional_extensionality. intros i. ring. }
  rewrite CA. unfold ND, TD, RD, CD, WD. rewrite !inner_pad.
  unfold GOAL. 
  change (tb_np d) with (fun i => at_time Z t (i + 1)%nat * q_fm st (i + 1)%nat + sin (at_time C t (i + 1)%nat) * q_vf st (i + 1)%nat
      + cos (at_time C t (i + 1)%nat) * q_th st (i + 1)%nat).
  change (tb_tp d) with (fun i => at_time Z t (i + 1)%nat * q_tq st (i + 1)%nat + q_sf st (i + 1)%nat).
  change (tb_r d) with (fun i => cb_r db (i + 1)%nat). change (tb_pc d) with (fun i => cb_pc db (i + 1)%nat).
  change (tb_ps d) with (fun i => cb_ps db (i + 1)%nat). change (tb_precone d) with (cb_precone db).
  change (tb_rhub d) with (cb_r db 0%nat). change (tb_rtip d) with (cb_r db (n + 1)%nat).
  change (tb_pctip d) with (cb_pc db (n + 1)%nat). change (tb_pstip d) with (cb_ps db (n + 1)%nat).
  unfold at_time. ring.
Qed.
