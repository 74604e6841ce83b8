(** Specification vocabulary and lemmas for DirectionVector.fromArray and toArray. *)
From Coq Require Import Reals List Bool Arith Lra Lia.
From Verif Require Import Prelim CSystemArray.
Import ListNotations.
Open Scope R_scope.

(** The number of directions a component holds, and the i-th of them. *)
Definition size (c : comp) : nat := match c with Sc _ => 1 | Ar l => length l end.
Definition at_ (c : comp) (i : nat) : R := match c, i with Sc x, O => x | Sc _, _ => 0 | Ar l, _ => nth i l 0 end.

(** The vector holds n directions; the i-th of them. *)
Definition holds (v : cvec) (n : nat) : Prop := size (cx v) = n /\ size (cy v) = n /\ size (cz v) = n.
Definition direction (v : cvec) (i : nat) : list R := [at_ (cx v) i; at_ (cy v) i; at_ (cz v) i].

Lemma column_size c : length (column c) = size c.
Proof. destruct c; reflexivity. Qed.

Lemma column_at c i : (i < size c)%nat -> nth i (column c) 0 = at_ c i.
Proof. destruct c; simpl; [intros H; destruct i; [reflexivity|lia]|reflexivity]. Qed.

Lemma rows_of (X : list R) : forall Y Z, length X = length Y -> length X = length Z ->
  map (fun t => [fst t; fst (snd t); snd (snd t)]) (combine X (combine Y Z)) =
  map (fun i => [nth i X 0; nth i Y 0; nth i Z 0]) (seq 0 (length X)).
Proof.
  induction X as [|x X IH]; intros [|y Y] [|z Z] HY HZ; try discriminate; [reflexivity|].
  cbn [combine map length seq fst snd nth]. f_equal. rewrite IH by (simpl in *; lia).
  rewrite <- seq_shift, map_map. reflexivity.
Qed.

Lemma to_array v n : holds v n -> toArray v = Ok (A2 (map (direction v) (seq 0 n))).
Proof.
  intros (HX & HY & HZ). unfold toArray. cbv zeta. rewrite !column_size, HX, HY, HZ, Nat.eqb_refl. cbn [andb].
  rewrite rows_of by (rewrite !column_size; congruence). rewrite column_size, HX. f_equal. f_equal.
  apply map_ext_in. intros i Hi. apply in_seq in Hi. unfold direction. rewrite !column_at by lia. reflexivity.
Qed.

Lemma to_array_mismatch v : (forall n, ~ holds v n) -> toArray v = Raise ValueError.
Proof.
  intros H. unfold toArray. cbv zeta. rewrite !column_size.
  destruct (Nat.eqb_spec (size (cx v)) (size (cy v))) as [A|A]; [|reflexivity].
  destruct (Nat.eqb_spec (size (cx v)) (size (cz v))) as [B|B]; [|reflexivity].
  exfalso. apply (H (size (cx v))). repeat split; congruence.
Qed.

Lemma roundtrip_short v n : holds v n -> (n < 3)%nat -> (do a <- toArray v; fromArray a) = Raise IndexError.
Proof.
  intros H Hn. rewrite (to_array v n H). cbn [bind]. destruct n as [|[|[|n]]]; [reflexivity..|lia].
Qed.

Lemma roundtrip_long v n : holds v n -> (3 <= n)%nat ->
  (do a <- toArray v; fromArray a) = Ok (mkCV (Ar (direction v 0)) (Ar (direction v 1)) (Ar (direction v 2))).
Proof.
  intros H Hn. rewrite (to_array v n H). cbn [bind]. destruct n as [|[|[|n]]]; [lia..|reflexivity].
Qed.

Lemma three_list (l : list R) : length l = 3%nat -> l = [nth 0 l 0; nth 1 l 0; nth 2 l 0].
Proof. destruct l as [|a [|b [|c [|d l]]]]; intros H; try discriminate. reflexivity. Qed.

Lemma list3 (a b c a' b' c' : R) : [a; b; c] = [a'; b'; c'] -> a = a' /\ b = b' /\ c = c'.
Proof. intros H. inversion H. auto. Qed.

Lemma roundtrip_iff v n : holds v n ->
  ((do a <- toArray v; fromArray a) = Ok v <->
   n = 3%nat /\ at_ (cy v) 0 = at_ (cx v) 1 /\ at_ (cz v) 0 = at_ (cx v) 2 /\ at_ (cz v) 1 = at_ (cy v) 2).
Proof.
  intros H. destruct (Nat.lt_ge_cases n 3) as [L|L].
  - rewrite (roundtrip_short v n H L). split; [discriminate|lia].
  - rewrite (roundtrip_long v n H L). destruct v as [X Y Z]. destruct H as (HX & HY & HZ). cbn [cx cy cz] in *. split.
    + intros E. assert (E' : mkCV (Ar (direction (mkCV X Y Z) 0)) (Ar (direction (mkCV X Y Z) 1))
        (Ar (direction (mkCV X Y Z) 2)) = mkCV X Y Z) by congruence.
      assert (EX : Ar (direction (mkCV X Y Z) 0) = X) by exact (f_equal cx E').
      assert (EY : Ar (direction (mkCV X Y Z) 1) = Y) by exact (f_equal cy E').
      assert (EZ : Ar (direction (mkCV X Y Z) 2) = Z) by exact (f_equal cz E').
      assert (EXl : at_ X 1 = at_ Y 0 /\ at_ X 2 = at_ Z 0) by (rewrite <- EX at 1 2; split; reflexivity).
      assert (EYl : at_ Y 2 = at_ Z 1) by (rewrite <- EY at 1; reflexivity).
      split; [rewrite <- HX, <- EX; reflexivity|]. intuition congruence.
    + intros (E & A & B & C). rewrite E in HX, HY, HZ. clear E L n.
      destruct X as [x|lx]; [exfalso; simpl in HX; lia|]. destruct Y as [y|ly]; [exfalso; simpl in HY; lia|].
      destruct Z as [z|lz]; [exfalso; simpl in HZ; lia|].
      cbn [size] in HX, HY, HZ. unfold at_ in A, B, C. unfold direction, at_. cbn [cx cy cz].
      rewrite (three_list lx HX), (three_list ly HY), (three_list lz HZ). cbn [nth]. rewrite A, B, C. reflexivity.
Qed.
